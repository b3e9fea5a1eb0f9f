(** Properties C32, C33, C62 and C63: numeric literals. *)
From Coq Require Import Lia.
From Verif Require Import NumProofs7.

(** The compiler reads the text of a literal in one way only, so [show l] stands for [l]. *)
Theorem literal_text_unambiguous l : wf l -> lex (show l) = l.
Proof. exact (lex_show l). Qed.
Print Assumptions literal_text_unambiguous.

(** ** C32 *)
(** Formatting any literal gives a literal of the same number, radix, suffix and kind. *)
Theorem literal_format_preserves l : wf l ->
  exists n l', from_lit_kind (show l) (kind_of l) = Some n /\ format n = Some (show l') /\ wf l' /\ same_literal l l'.
Proof.
  intros W. exists (numlit_of l), (reformat l). auto using from_lit_kind_show, format_show, wf_reformat, same_reformat.
Qed.
Print Assumptions literal_format_preserves.
(** In particular the compiler's reading of the text before and after. *)
Theorem literal_format_reads_same l : wf l ->
  exists n t, from_lit_kind (show l) (kind_of l) = Some n /\ format n = Some t /\ wf (lex t) /\ same_literal (lex (show l)) (lex t).
Proof.
  intros W. destruct (literal_format_preserves l W) as (n & l' & A & B & C & D). exists n, (show l'). rewrite !lex_show by auto. auto.
Qed.
Print Assumptions literal_format_reads_same.

(** What changes apart from underscores: leading zeros of a hexadecimal literal, an exponent written `e0`. *)
Theorem literal_format_digits l : wf l -> exists n l', from_lit_kind (show l) (kind_of l) = Some n /\ format n = Some (show l') /\
  (base l <> Hexadecimal -> digits_of (ipart l') = digits_of (ipart l)) /\
  (base l = Hexadecimal -> exists k, (k < 4)%nat /\ digits_of (ipart l') = repeat "0"%char k ++ digits_of (ipart l)) /\
  (forall f, fpart l = Some f -> exists f', fpart l' = Some f' /\ digits_of f' = digits_of f) /\
  (forall c sg x, epart l = Some (c, sg, x) -> (exists x', epart l' = Some (c, sg, x') /\ digits_of x' = digits_of x) \/ (epart l' = None /\ sg = None /\ digits_of x = tx "0")) /\
  (epart l = None -> epart l' = None /\ (fpart l = None -> fpart l' = None)).
Proof.
  intros W. exists (numlit_of l), (reformat l). split; [now apply from_lit_kind_show|]. split; [now apply format_show|]. rewrite !digits_of_strip, reformat_ipart, fmt_i_strip by auto.
  split; [|split; [|split; [|split]]].
  - intros N. unfold is_hex. destruct (base l); try reflexivity; congruence.
  - intros B. unfold is_hex, grouping. rewrite B. cbn [radix_eqb suggest_grouping]. exists (4 - first_of 4 (strip_us (ipart l))). split; [pose proof (first_bounds 4 ltac:(lia) (strip_us (ipart l))); lia|reflexivity].
  - intros f F. destruct (wf_f l W f F) as [DF _]. unfold reformat, without_exp, fmt_f. rewrite F. cbn [option_map]. destruct (epart l) as [[[c sg] x]|]; [destruct (zero_exp l)|]; cbn [with_parts fpart];
      (eexists; split; [reflexivity|]; rewrite !digits_of_strip, ?strip_sufus, ?strip_sepof; now apply strip_Lf_any).
  - intros c sg x E. destruct (wf_e l W c sg x E) as (EC & ES & DX & HX). destruct (exp_facts sg x ES DX HX) as (X1 & X2 & X3 & X4). unfold reformat. rewrite E. destruct (zero_exp l) eqn:Z.
    + right. split; [unfold without_exp, fmt_f; destruct (fpart l); [reflexivity|]; destruct (tsuf l); reflexivity|]. unfold zero_exp in Z. rewrite E in Z. apply teqb_eq in Z. destruct sg as [s|]; cbn [sgt app] in Z.
      * injection Z as -> Z. destruct ES as [S|[S|S]]; discriminate.
      * split; [reflexivity|]. rewrite digits_of_strip, <- (strip_cut (tsuf l)), Z. reflexivity.
    + left. exists (exp_digits sg x ++ sufus l). split; [destruct (fpart l); reflexivity|]. now rewrite !digits_of_strip, strip_sufus.
  - intros E. unfold reformat, without_exp, fmt_f. rewrite E. destruct (fpart l); split; auto; discriminate.
Qed.
Print Assumptions literal_format_digits.

Definition ex_hex : lit := {| base := Hexadecimal; ipart := tx "123_45678_9aB"; fpart := None; epart := None; tsuf := Some (tx "u64") |}.
Definition ex_float : lit := {| base := Decimal; ipart := tx "1234567_"; fpart := Some (tx "8901_2"); epart := Some ("e"%char, Some dash, tx "1_2345"); tsuf := Some (tx "f64") |}.
Example C32_nontrivial :
  wf ex_hex /\ wf ex_float /\
  obind (from_lit_kind (show ex_hex) (kind_of ex_hex)) format = Some (tx "0x0123_4567_89aB_u64") /\
  obind (from_lit_kind (show ex_float) (kind_of ex_float)) format = Some (tx "1_234_567.890_12e-12_345_f64").
Proof.
  split; [|split; [|split; reflexivity]].
  - constructor; cbn; try discriminate; auto 20.
    + split; [repeat constructor|]. constructor. reflexivity.
    + intros s Q. injection Q as <-. right. auto 20.
  - constructor; cbn; try solve [congruence|auto|intros N; now destruct N].
    + split; [repeat constructor|]. constructor. reflexivity.
    + intros f Q. injection Q as <-. split; [repeat constructor|left; reflexivity].
    + intros c sg x Q. injection Q as <- <- <-. split; [auto|]. split; [auto|]. split; [repeat constructor|constructor; reflexivity].
    + intros s Q. injection Q as <-. left. auto 20.
Qed.

(** ** C33 *)
(** Every digit string without a sign, every group size: the two shapes, digits kept. *)
Theorem grouping_right_shape t g : (0 < g)%nat -> digits_of t <> [] -> hd "x"%char (digits_of t) <> dash ->
  exists t', group_digits t g true false = Some t' /\ right_aligned g t' /\ digits_of t' = digits_of t.
Proof.
  intros P N H. rewrite digits_of_strip in *. destruct (strip_us t) as [|c d] eqn:E; [congruence|]. exists (G g (c :: d)). assert (NU : ~ In us (c :: d)) by (rewrite <- E; apply strip_lacks).
  split; [now apply (group_digits_right t g false)|]. rewrite digits_of_strip. split; [|now apply strip_G].
  destruct (G_aligned g P (c :: d) ltac:(discriminate) NU) as (others & E1 & E2). exists (first_of g (c :: d)), others. pose proof (first_bounds g P (c :: d)). auto.
Qed.
Print Assumptions grouping_right_shape.
Theorem grouping_left_shape t g : (0 < g)%nat -> digits_of t <> [] -> hd "x"%char (digits_of t) <> dash ->
  exists t', group_digits t g false false = Some t' /\ left_aligned g t' /\ digits_of t' = digits_of t.
Proof.
  intros P N H. rewrite digits_of_strip in *. destruct (strip_us t) as [|c d] eqn:E; [congruence|]. exists (Lf g (c :: d)). assert (NU : ~ In us (c :: d)) by (rewrite <- E; apply strip_lacks).
  split; [now apply (group_digits_left t g)|]. rewrite digits_of_strip. split; [|now apply strip_Lf]. now apply Lf_aligned.
Qed.
Print Assumptions grouping_left_shape.
(** With zero padding every group is full. *)
Theorem grouping_padded_shape t g : (0 < g)%nat -> digits_of t <> [] -> hd "x"%char (digits_of t) <> dash ->
  exists t' k, group_digits t g true true = Some t' /\ Forall (fun n => n = g) (group_sizes t') /\ (k < g)%nat /\ digits_of t' = repeat "0"%char k ++ digits_of t.
Proof.
  intros P N H. rewrite digits_of_strip in *. destruct (strip_us t) as [|c d] eqn:E; [congruence|]. exists (pad g (c :: d) ++ G g (c :: d)), (g - first_of g (c :: d)). assert (NU : ~ In us (c :: d)) by (rewrite <- E; apply strip_lacks).
  split; [now apply (group_digits_right t g true)|]. destruct (padded g P (c :: d) ltac:(discriminate)) as [P1 P2]. rewrite <- P2.
  assert (NP : ~ In us (pad g (c :: d) ++ c :: d)) by (intros I; apply in_app_iff in I as [I|I]; [now apply pad_lacks in I|auto]).
  split; [|split; [pose proof (first_bounds g P (c :: d)); lia|]].
  - destruct (G_aligned g P (pad g (c :: d) ++ c :: d)) as (others & E1 & E2); [intros Q; apply app_eq_nil in Q as [_ Q]; discriminate|exact NP|]. rewrite E1, P1. constructor; auto.
  - rewrite digits_of_strip. now apply strip_G.
Qed.
Print Assumptions grouping_padded_shape.

(** The parts of a formatted literal, up to an underscore before the exponent or suffix. *)
Definition upto_us (P : text -> Prop) (t : text) : Prop := exists t0, P t0 /\ (t = t0 \/ t = t0 ++ [us]).
Theorem literal_format_shape_partial l : wf l -> exists n l', from_lit_kind (show l) (kind_of l) = Some n /\ format n = Some (show l') /\
  upto_us (right_aligned (suggest_grouping (base l))) (ipart l') /\
  (base l = Hexadecimal -> upto_us (fun t => Forall (fun n => n = 4%nat) (group_sizes t)) (ipart l')) /\
  (forall f, fpart l' = Some f -> f = [] \/ upto_us (left_aligned 3) f) /\
  (forall c sg x, epart l' = Some (c, sg, x) -> sg <> Some "+"%char -> upto_us (right_aligned 3) x).
Proof.
  intros W. exists (numlit_of l), (reformat l). split; [now apply from_lit_kind_show|]. split; [now apply format_show|]. destruct (fmt_i_right l W) as (first & others & G1 & G2 & G3).
  assert (US : forall s, sepof s = [] \/ sepof s = [us]) by (intros s; unfold sepof; destruct (ends [us] s); auto).
  assert (UU : sufus l = [] \/ sufus l = [us]) by (unfold sufus; destruct (tsuf l); auto).
  assert (K : forall (P : text -> Prop) t s, P t -> (s = [] \/ s = [us]) -> upto_us P (t ++ s)).
  { intros P t s Q [->| ->]; exists t; (split; [auto|]); [left; apply app_nil_r|auto]. }
  assert (K0 : forall (P : text -> Prop) t, P t -> upto_us P t) by (intros P t Q; exists t; auto).
  assert (I : forall P : text -> Prop, P (fmt_i l) -> upto_us P (ipart (reformat l))).
  { intros P Q. unfold reformat, without_exp, fmt_f. destruct (epart l) as [[[c sg] x]|]; destruct (fpart l) as [f|]; try destruct (zero_exp l); try destruct (tsuf l); cbn [option_map with_parts ipart]; auto. }
  split; [apply I; exists first, others; auto|]. split; [|split].
  - intros B. apply I. assert (H : is_hex l = true) by (unfold is_hex; now rewrite B). destruct (pad_G l W H) as (d' & S & N & PD & GE).
    assert (B4 : grouping l = 4) by (unfold grouping; now rewrite B). rewrite B4 in *. rewrite <- GE. destruct (G_aligned 4 ltac:(lia) d' N) as (oth & E1 & E2); [rewrite <- S; apply strip_lacks|]. rewrite E1. constructor; [|auto].
    apply (f_equal (@List.length ascii)) in PD. unfold pad in PD. rewrite repeat_length in PD. change (List.length (@nil ascii)) with 0 in PD. pose proof (first_bounds 4 ltac:(lia) d'). lia.
  - intros f' F'. assert (LS : forall f, fpart l = Some f -> strip_us f = [] \/ left_aligned 3 (Lf 3 (strip_us f))).
    { intros f F. destruct (strip_us f) as [|c d] eqn:Z; [auto|]. right. rewrite <- Z. apply Lf_left. rewrite Z. discriminate. }
    assert (EMP : forall f, fpart l = Some f -> strip_us f = [] -> epart l = None /\ tsuf l = None).
    { intros f F Z. destruct (wf_f l W f F) as [DF [SF|(_ & A & B)]]; [|auto]. exfalso. destruct f as [|c f]; [destruct SF|]. cbn in Z, SF. assert (N : c <> us) by (intros ->; discriminate). apply Ascii.eqb_neq in N. rewrite N in Z. discriminate. }
    unfold reformat, without_exp, fmt_f in F'. destruct (fpart l) as [f|] eqn:F.
    + destruct (LS f eq_refl) as [Z|LA].
      * destruct (EMP f eq_refl Z) as [E T]. rewrite E in F'. cbn [option_map with_parts fpart] in F'. injection F' as <-. left. rewrite Z. unfold sufus. rewrite T. reflexivity.
      * right. destruct (epart l) as [[[c sg] x]|]; [destruct (zero_exp l)|]; cbn [option_map with_parts fpart] in F'; injection F' as <-; auto.
    + right. destruct (epart l) as [[[c sg] x]|]; [destruct (zero_exp l); [destruct (tsuf l)|]|]; cbn [option_map with_parts fpart] in F'; try discriminate. injection F' as <-. apply K0. exists [], 1. repeat split; auto.
  - intros c sg x E NP. unfold reformat in E. destruct (epart l) as [[[c0 sg0] x0]|] eqn:E0; [|unfold without_exp in E; destruct (fmt_f l); discriminate].
    destruct (wf_e l W _ _ _ E0) as (EC & ES & DX & HX). destruct (zero_exp l); [exfalso; destruct (fpart l); [|destruct (tsuf l); [|discriminate]]; unfold without_exp in E; destruct (fmt_f l); discriminate|].
    assert (Q : c = c0 /\ sg = sg0 /\ x = exp_digits sg0 x0 ++ sufus l) by (destruct (fpart l); injection E as <- <- <-; auto). destruct Q as (-> & -> & ->). apply K; [|auto].
    assert (XE : exp_digits sg0 x0 = G 3 (strip_us x0)) by (destruct ES as [->|[->| ->]]; [reflexivity|congruence|reflexivity]). rewrite XE.
    destruct (G_aligned 3 ltac:(lia) (strip_us x0)) as (oth & E1 & E2); [eapply has_digit_strip; eauto|apply strip_lacks|]. exists (first_of 3 (strip_us x0)), oth. pose proof (first_bounds 3 ltac:(lia) (strip_us x0)). auto.
Qed.
Print Assumptions literal_format_shape_partial.
(** Missing: exponents with a plus sign, which is counted as a digit: `1e+123` becomes `1e+_123`. *)
Theorem literal_format_shape_refuted : exists l l', wf l /\ obind (from_lit_kind (show l) (kind_of l)) format = Some (show l') /\ wf l' /\
  exists c sg x, epart l' = Some (c, sg, x) /\ ~ upto_us (right_aligned 3) x.
Proof.
  exists {| base := Decimal; ipart := tx "1"; fpart := None; epart := Some ("e"%char, Some "+"%char, tx "123"); tsuf := None |},
         {| base := Decimal; ipart := tx "1"; fpart := None; epart := Some ("e"%char, Some "+"%char, tx "_123"); tsuf := None |}.
  assert (WF : forall x, digits_ok Decimal x -> has_digit Decimal x -> wf {| base := Decimal; ipart := tx "1"; fpart := None; epart := Some ("e"%char, Some "+"%char, x); tsuf := None |}).
  { intros x D H. constructor; cbn; try solve [congruence|auto|discriminate|intros N; now destruct N].
    - split; [repeat constructor|constructor; reflexivity].
    - intros c sg x0 Q. injection Q as <- <- <-. auto. }
  split; [apply WF; [repeat constructor|constructor; reflexivity]|]. split; [reflexivity|]. split; [apply WF; [repeat constructor|right; constructor; reflexivity]|].
  eexists _, _, _. split; [reflexivity|]. intros (t0 & (first & others & E & B & _) & [Q|Q]).
  - subst t0. cbn in E. injection E as <- _. lia.
  - change (tx "_123") with (tx "_12" ++ ["3"%char]) in Q. apply app_inj_tail in Q as [_ Q]. discriminate.
Qed.
Print Assumptions literal_format_shape_refuted.

(** Formatting a formatted literal changes nothing, unless the exponent is a zero written with an underscore. *)
Theorem literal_format_stable_partial l : wf l ->
  (forall c x, epart l = Some (c, None, x) -> digits_of x = tx "0" -> x = tx "0" \/ tsuf l <> None /\ x = tx "0_") ->
  exists n l' n', from_lit_kind (show l) (kind_of l) = Some n /\ format n = Some (show l') /\ from_lit_kind (show l') (kind_of l') = Some n' /\ format n' = Some (show l').
Proof.
  intros W H. exists (numlit_of l), (reformat l), (numlit_of (reformat l)). pose proof (wf_reformat l W) as WR. split; [now apply from_lit_kind_show|]. split; [now apply format_show|]. split; [now apply from_lit_kind_show|].
  rewrite format_show, reformat_twice; auto. intros c x E Z. unfold zero_exp. rewrite E. destruct (H c x E) as [->|[T ->]]; [now rewrite digits_of_strip| |].
  - destruct (tsuf l); reflexivity.
  - destruct (tsuf l); [reflexivity|congruence].
Qed.
Print Assumptions literal_format_stable_partial.
(** Otherwise `1e0_` becomes `1e0`, and this becomes `1.0`. *)
Theorem literal_format_stable_refuted : exists l t, wf l /\ obind (from_lit_kind (show l) (kind_of l)) format = Some t /\ obind (from_lit_kind t (kind_of (lex t))) format <> Some t.
Proof.
  exists {| base := Decimal; ipart := tx "1"; fpart := None; epart := Some ("e"%char, None, tx "0_"); tsuf := None |}, (tx "1e0"). split; [|split; [reflexivity|discriminate]].
  constructor; cbn; try solve [congruence|auto|discriminate|intros N; now destruct N].
  - split; [repeat constructor|constructor; reflexivity].
  - intros c sg x0 Q. injection Q as <- <- <-. split; [auto|]. split; [auto|]. split; [repeat constructor|constructor; reflexivity].
Qed.
Print Assumptions literal_format_stable_refuted.

(** A grouping lint's suggestion always exists, keeps the literal, and is itself accepted under either configuration. *)
Theorem literal_lint_accepts_suggestion lf l w s : wf l -> check_lit lf (show l) (kind_of l) = Some (Grouping w s) ->
  exists l', s = Some (show l') /\ wf l' /\ same_literal l l' /\ forall lf', check_lit lf' (show l') (kind_of l') = None.
Proof.
  intros W C. unfold check_lit in C. rewrite from_lit_kind_show in C by auto. destruct (check_for_mistyped_suffix (numlit_of l)); [discriminate|].
  destruct (is_literal_uuid_formatted _); [discriminate|]. destruct (grouping_warning lf (numlit_of l)); [|discriminate]. injection C as <- <-.
  exists (reformat l). rewrite format_show by auto. auto using wf_reformat, same_reformat, check_quiet.
Qed.
Print Assumptions literal_lint_accepts_suggestion.
Example C33_nontrivial : check_lit true (show ex_float) (kind_of ex_float) = Some (Grouping InconsistentDigitGrouping (Some (tx "1_234_567.890_12e-12_345_f64"))).
Proof. reflexivity. Qed.

(** ** C62 *)
(** An integer literal taken for one with a mistyped suffix: the suggestion is a literal of the value before
    the last group, of a type that can hold it, unsigned only when the signed type cannot. *)
Theorem mistyped_suffix_int l s lf : wf l -> epart l = None -> check_lit lf (show l) (kind_of l) = Some (MistypedSuffix s) ->
  exists main g c lim l', ipart l = main ++ us :: g /\ fpart l = None /\ tsuf l = None /\ s = Some (show l') /\ wf l' /\ base l' = base l /\ fpart l' = None /\ epart l' = None /\ tsuf l' = Some (c :: g)
   /\ number l' = (horner (base_of (base l)) (digits_of main), 0%Z) /\ In (c :: g, lim) limits /\ (0 <= fst (number l') < lim)%Z /\ (c = "u"%char -> lim <= 2 * fst (number l'))%Z.
Proof.
  intros W E C. unfold check_lit in C. rewrite from_lit_kind_show in C by auto. destruct (check_for_mistyped_suffix (numlit_of l)) as [s0|] eqn:M; [|destruct (is_literal_uuid_formatted _); [discriminate|]; destruct (grouping_warning lf (numlit_of l)); discriminate].
  injection C as <-. destruct (mistyped_int l s0 W E M) as (m & g & c & lim & l' & A & (p & P) & B). subst m. exists p, g, c, lim, l'. rewrite <- app_assoc in A.
  replace (digits_of p) with (digits_of (p ++ [us])); [auto|]. rewrite !digits_of_strip, strip_app. apply app_nil_r.
Qed.
Print Assumptions mistyped_suffix_int.
(** The same of a float literal's exponent, when a digit comes before the last group. *)
Theorem mistyped_suffix_float_partial l s lf c sg x : wf l -> epart l = Some (c, sg, x) -> check_lit lf (show l) (kind_of l) = Some (MistypedSuffix s) ->
  exists main g, x = main ++ us :: g /\ (g = tx "32" \/ g = tx "64") /\ tsuf l = None /\
   (has_digit Decimal main -> exists l', s = Some (show l') /\ wf l' /\ tsuf l' = Some ("f"%char :: g)
      /\ same_number (number l') (number {| base := base l; ipart := ipart l; fpart := fpart l; epart := Some (c, sg, main); tsuf := None |})).
Proof.
  intros W E C. unfold check_lit in C. rewrite from_lit_kind_show in C by auto. destruct (check_for_mistyped_suffix (numlit_of l)) as [s0|] eqn:M; [|destruct (is_literal_uuid_formatted _); [discriminate|]; destruct (grouping_warning lf (numlit_of l)); discriminate].
  injection C as <-. destruct (mistyped_exp l s0 c sg x W E M) as (m & g & A & (p & P) & B1 & B2 & B3). subst m. exists p, g. rewrite <- app_assoc in A. split; [exact A|]. split; [auto|]. split; [auto|].
  intros H. destruct B3 as (l' & C1 & C2 & C3 & C4); [now apply has_app|]. exists l'. split; [auto|]. split; [auto|]. split; [auto|].
  assert (Q : number {| base := base l; ipart := ipart l; fpart := fpart l; epart := Some (c, sg, p); tsuf := None |} = number {| base := base l; ipart := ipart l; fpart := fpart l; epart := Some (c, sg, p ++ [us]); tsuf := Some ("f"%char :: g) |}).
  { unfold number, frac_digits, exponent_of. cbn [base ipart fpart epart]. rewrite !digits_of_strip, strip_app. change (strip_us [us]) with (@nil ascii). now rewrite app_nil_r. }
  rewrite Q. exact C4.
Qed.
Print Assumptions mistyped_suffix_float_partial.
Lemma exponent_wf sg x : (sg = None \/ sg = Some "+"%char \/ sg = Some dash) -> digits_ok Decimal x -> has_digit Decimal x ->
  wf {| base := Decimal; ipart := tx "1"; fpart := None; epart := Some ("e"%char, sg, x); tsuf := None |}.
Proof.
  intros S D H. constructor; cbn; try solve [congruence|auto|discriminate|intros N; now destruct N].
  - split; [repeat constructor|constructor; reflexivity].
  - intros c sg0 x0 Q. injection Q as <- <- <-. auto.
Qed.
(** Otherwise the code panics (`1e_32`) or suggests a text that is no literal (`1e+_32`). *)
Theorem mistyped_suffix_float_refuted :
  (exists l, wf l /\ forall lf, check_lit lf (show l) (kind_of l) = Some (MistypedSuffix None)) /\
  (exists l t, wf l /\ (forall lf, check_lit lf (show l) (kind_of l) = Some (MistypedSuffix (Some t))) /\ forall l', wf l' -> show l' <> t).
Proof.
  split.
  - exists {| base := Decimal; ipart := tx "1"; fpart := None; epart := Some ("e"%char, None, tx "_32"); tsuf := None |}. split; [|reflexivity]. apply exponent_wf; [auto|repeat constructor|right; constructor; reflexivity].
  - exists {| base := Decimal; ipart := tx "1"; fpart := None; epart := Some ("e"%char, Some "+"%char, tx "_32"); tsuf := None |}, (tx "1e+_f32").
    split; [apply exponent_wf; [auto|repeat constructor|right; constructor; reflexivity]|]. split; [reflexivity|]. intros l' W' E. pose proof (lex_show l' W') as L. rewrite E in L.
    assert (Q : epart l' = Some ("e"%char, Some "+"%char, tx "_")) by (rewrite <- L; reflexivity). destruct (wf_e l' W' _ _ _ Q) as (_ & _ & _ & H). inversion H as [? ? D|? ? D]; [discriminate|inversion D].
Qed.
Print Assumptions mistyped_suffix_float_refuted.
Example C62_nontrivial :
  check_lit true (tx "40_000_16") {| kfloat := false; ksuffix := None |} = Some (MistypedSuffix (Some (tx "40_000_u16"))) /\
  check_lit true (tx "2.5e1_2_32") {| kfloat := true; ksuffix := None |} = Some (MistypedSuffix (Some (tx "2.5e12_f32"))).
Proof. split; reflexivity. Qed.

(** ** C63 *)
(** The hexadecimal suggestion denotes the same number of the same type. *)
Theorem hex_suggestion_same_number l th v s : wf l -> is_float l = false -> number l = (v, 0%Z) -> (0 <= v)%Z -> check_decimal th (show l) v (tsuf l) = Some s ->
  base l = Decimal /\ (th <= v)%Z /\ exists l', s = Some (show l') /\ wf l' /\ base l' = Hexadecimal /\ fpart l' = None /\ epart l' = None /\ tsuf l' = tsuf l /\ number l' = number l.
Proof. exact (decimal_hex l th v s). Qed.
Print Assumptions hex_suggestion_same_number.
(** Every power of two, and every number one less, is reported. *)
Theorem hex_powers_reported l th v : wf l -> is_float l = false -> base l = Decimal -> (th <= v)%Z ->
  (exists k, v = (2 ^ Z.of_nat k)%Z \/ v = (2 ^ Z.of_nat (S k) - 1)%Z) -> exists s, check_decimal th (show l) v (tsuf l) = Some s.
Proof. exact (decimal_reported l th v). Qed.
Print Assumptions hex_powers_reported.
Example C63_nontrivial : check_decimal 16384 (tx "65_535_u32") 65535 (Some (tx "u32")) = Some (Some (tx "0xFFFF_u32")).
Proof. reflexivity. Qed.
