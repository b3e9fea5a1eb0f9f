From Verif Require Import Text DevModel DevSpec.
From Coq Require Import Lia DecimalString DecimalN Permutation Sorted Relations.

(** ** Versions *)
Lemma uint_chars d : Forall (fun c => is_digit c = true) (tx (NilEmpty.string_of_uint d)).
Proof. induction d; cbn; constructor; auto. Qed.
Lemma dec_digits n : Forall (fun c => is_digit c = true) (dec n).
Proof.
  unfold dec, NilZero.string_of_uint. destruct (N.to_uint n) eqn:E; try (rewrite <- E; apply uint_chars).
  repeat constructor.
Qed.
Lemma to_uint_nonnil n : N.to_uint n <> Decimal.Nil.
Proof.
  intros H. assert (E := DecimalN.Unsigned.of_to n). rewrite H in E. cbn in E. subst n. discriminate.
Qed.
Lemma parse_dec n : (n <= 65535)%N -> parse_u16 (dec n) = Some n.
Proof.
  intros L. assert (D := dec_digits n). unfold parse_u16.
  assert (X : (match dec n with "+"%char :: (_ :: _) as r => tl (dec n) | _ => dec n end) = dec n).
  { destruct (dec n) as [|c [|d r]] eqn:E; try reflexivity.
    - destruct c as [[] [] [] [] [] [] [] []]; reflexivity.
    - inversion D as [|? ? Hc]; subst. destruct c as [[] [] [] [] [] [] [] []]; try reflexivity; discriminate Hc. }
  rewrite X. unfold dec, tx. rewrite string_of_list_ascii_of_string.
  rewrite NilZero.usu by apply to_uint_nonnil. rewrite DecimalN.Unsigned.of_to.
  apply N.leb_le in L. now rewrite L.
Qed.
Lemma dec_lacks n c : is_digit c = false -> ~ In c (dec n).
Proof. intros H HI. assert (D := dec_digits n). rewrite Forall_forall in D. rewrite (D _ HI) in H. discriminate. Qed.
Lemma version_roundtrip v : (v_major v <= 65535)%N -> (v_minor v <= 65535)%N ->
  version_parse (toml_display v) = Some v.
Proof.
  intros L1 L2. unfold version_parse, toml_display. rewrite strip_pre_app.
  change (tx "." ++ dec (v_minor v)) with ("."%char :: dec (v_minor v)).
  rewrite cut_app by (now apply dec_lacks). rewrite !parse_dec by assumption. now destruct v.
Qed.

(** ** Manifests *)
Lemma tl_header l r : strip_pre (tx "[") l = Some r -> l = "["%char :: r.
Proof. intros H. apply strip_pre_some in H. exact H. Qed.
Lemma toml_line_table l n : toml_line l = Some (TTable n) <-> header l n.
Proof.
  unfold toml_line, header. destruct (strip_pre (tx "[") l) as [r|] eqn:E.
  - apply strip_pre_some in E. destruct (cut "]"%char r) as [[a b]|] eqn:F; cbn [option_map].
    + apply cut_some in F. destruct F as [-> N]. split.
      * intros [= <-]. exists b. split; [assumption|exact E].
      * intros (rest & N' & H). rewrite E in H. cbn in H. injection H as H.
        assert (X : cut "]"%char (a ++ "]"%char :: b) = cut "]"%char (n ++ "]"%char :: rest)) by congruence.
        rewrite !cut_app in X by assumption. congruence.
    + split; [discriminate|]. intros (rest & N' & H). rewrite E in H. cbn in H. injection H as H.
      apply cut_none in F. destruct F. rewrite H. apply in_or_app. right; now left.
  - split.
    + destruct l as [|c l]; [discriminate|]. destruct (is_alnum c || _); [|discriminate].
      destruct (cut "="%char (c :: l)) as [[? ?]|]; discriminate.
    + intros (rest & N' & ->). rewrite strip_pre_app in E. discriminate.
Qed.
Lemma toml_line_value_inv l k v : toml_line l = Some (TValue k v) -> l = k ++ "="%char :: v /\ ~ In "="%char k.
Proof.
  unfold toml_line. destruct (strip_pre (tx "[") l) as [r|].
  - destruct (cut "]"%char r) as [[a b]|]; discriminate.
  - destruct l as [|c l]; [discriminate|]. destruct (is_alnum c || _); [|discriminate].
    destruct (cut "="%char (c :: l)) as [[a b]|] eqn:E; [|discriminate].
    intros [= <- <-]. now apply cut_some in E.
Qed.
Lemma blank_lacks b c : blank b -> is_ws c = false -> ~ In c b.
Proof. intros F H HI. unfold blank in F. rewrite Forall_forall in F. rewrite (F _ HI) in H. discriminate. Qed.
Lemma toml_line_version b v : blank b ->
  toml_line (tx "version" ++ b ++ tx "=" ++ v) = Some (TValue (tx "version" ++ b) v).
Proof.
  intros B. unfold toml_line. change (strip_pre (tx "[") (tx "version" ++ b ++ tx "=" ++ v)) with (@None text).
  change (tx "version" ++ b ++ tx "=" ++ v) with ("v"%char :: tx "ersion" ++ b ++ "="%char :: v) at 1.
  cbn match. change (is_alnum "v"%char || _) with true. cbn iota.
  rewrite app_assoc. change (tx "=" ++ v) with ("="%char :: v). rewrite cut_app; [reflexivity|].
  intros H. apply in_app_or in H. destruct H as [H|H].
  - cbn in H. intuition discriminate.
  - revert H. now apply blank_lacks.
Qed.
Lemma trim_end_version b : blank b -> trim_end (tx "version" ++ b) = tx "version".
Proof. intros B. rewrite trim_end_app by assumption. reflexivity. Qed.
Lemma trim_end_eq_version k : trim_end k = tx "version" <-> exists b, blank b /\ k = tx "version" ++ b.
Proof.
  split.
  - intros H. destruct (trim_end_decomp k) as (w & E & F & _). rewrite H in E. now exists w.
  - intros (b & B & ->). now apply trim_end_version.
Qed.
Lemma value_sets_version l k v : toml_line l = Some (TValue k v) -> teqb (trim_end k) (tx "version") = true -> sets_version l.
Proof.
  intros H T. apply teqb_eq, trim_end_eq_version in T. destruct T as (b & B & ->).
  apply toml_line_value_inv in H. destruct H as [-> _]. exists b, v. split; [assumption|].
  now rewrite <- app_assoc.
Qed.

Lemma trim_mid b1 s b2 : blank b1 -> blank b2 -> s <> [] -> hd_not is_ws s -> hd_not is_ws (rev s) -> trim (b1 ++ s ++ b2) = s.
Proof.
  intros B1 B2 NE H1 H2. unfold trim. rewrite trim_start_app by assumption.
  rewrite trim_start_id; [|destruct s; [congruence|exact H1]].
  rewrite trim_end_app by assumption. now apply trim_end_id.
Qed.
Lemma trim_decomp s : exists b1 b2, s = b1 ++ trim s ++ b2 /\ blank b1 /\ blank b2.
Proof.
  destruct (trim_start_decomp s) as (w & E & F & _). destruct (trim_end_decomp (trim_start s)) as (w' & E' & F' & _).
  exists w, w'. unfold trim. split; [|split; assumption]. now rewrite <- E'.
Qed.
Lemma trim_package n : teqb (trim n) (tx "package") = true <-> exists b1 b2, blank b1 /\ blank b2 /\ n = b1 ++ tx "package" ++ b2.
Proof.
  rewrite teqb_eq. split.
  - intros H. destruct (trim_decomp n) as (b1 & b2 & E & B1 & B2). rewrite H in E. now exists b1, b2.
  - intros (b1 & b2 & B1 & B2 & ->). apply trim_mid; try assumption; try reflexivity. discriminate.
Qed.

(** The package flag after some lines. *)
Definition flag_step (f : bool) (l : text) : bool :=
  match toml_line l with Some (TTable n) => teqb (trim n) (tx "package") | _ => f end.
Definition flag (ls : list text) (f : bool) : bool := fold_left flag_step ls f.
Lemma flag_app a b f : flag (a ++ b) f = flag b (flag a f).
Proof. apply fold_left_app. Qed.
Lemma flag_quiet ls f : (forall l, In l ls -> forall n, ~ header l n) -> flag ls f = f.
Proof.
  revert f. induction ls as [|l ls IH]; intros f H; [reflexivity|]. unfold flag in *. cbn.
  rewrite IH by (intros; apply H; now right). unfold flag_step.
  destruct (toml_line l) as [[n|]|] eqn:E; try reflexivity.
  apply toml_line_table in E. now apply (H l (or_introl eq_refl)) in E.
Qed.
Lemma flag_package ls : flag ls false = true <-> in_package_table ls.
Proof.
  split.
  - induction ls as [|l ls IH] using rev_ind; [discriminate|].
    rewrite flag_app. unfold flag at 1. cbn. unfold flag_step.
    destruct (toml_line l) as [[n|k v]|] eqn:E.
    + intros T. apply trim_package in T. destruct T as (b1 & b2 & B1 & B2 & ->).
      exists ls, l, [], b1, b2. split; [reflexivity|]. split; [assumption|]. split; [assumption|].
      split; [now apply toml_line_table|]. now intros ? [].
    + intros H. destruct (IH H) as (l1 & h & l2 & b1 & b2 & -> & B1 & B2 & Hh & Q).
      exists l1, h, (l2 ++ [l]), b1, b2. rewrite <- app_assoc. split; [reflexivity|].
      split; [assumption|]. split; [assumption|]. split; [assumption|].
      intros x Hx n Hn. apply in_app_or in Hx. destruct Hx as [Hx|[<-|[]]]; [now apply Q in Hn|].
      apply toml_line_table in Hn. congruence.
    + intros H. destruct (IH H) as (l1 & h & l2 & b1 & b2 & -> & B1 & B2 & Hh & Q).
      exists l1, h, (l2 ++ [l]), b1, b2. rewrite <- app_assoc. split; [reflexivity|].
      split; [assumption|]. split; [assumption|]. split; [assumption|].
      intros x Hx n Hn. apply in_app_or in Hx. destruct Hx as [Hx|[<-|[]]]; [now apply Q in Hn|].
      apply toml_line_table in Hn. congruence.
  - intros (l1 & h & l2 & b1 & b2 & -> & B1 & B2 & Hh & Q).
    rewrite flag_app. change (flag (h :: l2) (flag l1 false)) with (flag l2 (flag_step (flag l1 false) h)).
    rewrite flag_quiet by assumption. unfold flag_step. apply toml_line_table in Hh. rewrite Hh.
    apply trim_package. now exists b1, b2.
Qed.

Definition width (ls : list text) : nat := fold_right (fun l n => List.length l + 1 + n) 0 ls.
Lemma toml_from_app a b pos : toml_from pos (a ++ b) = toml_from pos a ++ toml_from (pos + width a) b.
Proof.
  revert pos. induction a as [|l a IH]; intros pos; cbn.
  - f_equal. lia.
  - rewrite IH. replace (pos + List.length l + 1 + width a) with (pos + (List.length l + 1 + width a)) by lia.
    destruct (toml_line l); reflexivity.
Qed.
Definition run_lines (pos : nat) (ls : list text) (st : cargo_package) := fold_left package_step (toml_from pos ls) st.
Lemma run_lines_cons pos l ls st : run_lines pos (l :: ls) st =
  run_lines (pos + List.length l + 1) ls (match toml_line l with Some p => package_step st (pos, p) | None => st end).
Proof. unfold run_lines. cbn. destruct (toml_line l); reflexivity. Qed.
Lemma run_lines_app pos a b st : run_lines pos (a ++ b) st = run_lines (pos + width a) b (run_lines pos a st).
Proof. unfold run_lines. now rewrite toml_from_app, fold_left_app. Qed.
Lemma step_flag st pos l : in_package (match toml_line l with Some p => package_step st (pos, p) | None => st end) = flag_step (in_package st) l.
Proof.
  unfold flag_step. destruct (toml_line l) as [[n|k v]|]; cbn [package_step]; try reflexivity.
  destruct (in_package st) eqn:P; [|now rewrite P]. destruct (teqb _ _); [now cbn|]. destruct (teqb _ _); now cbn.
Qed.
Lemma run_flag pos ls st : in_package (run_lines pos ls st) = flag ls (in_package st).
Proof.
  revert pos st. induction ls as [|l ls IH]; intros pos st; [reflexivity|].
  rewrite run_lines_cons, IH, step_flag. reflexivity.
Qed.
Lemma step_range st pos l : ~ (sets_version l /\ in_package st = true) ->
  let st' := match toml_line l with Some p => package_step st (pos, p) | None => st end in
  ver_start st' = ver_start st /\ ver_end st' = ver_end st.
Proof.
  intros H. cbn zeta. destruct (toml_line l) as [[n|k v]|] eqn:E; cbn [package_step]; try (split; reflexivity).
  destruct (in_package st) eqn:P; [|split; reflexivity].
  destruct (teqb (trim_end k) (tx "name")); [split; reflexivity|].
  destruct (teqb (trim_end k) (tx "version")) eqn:T; [|split; reflexivity].
  destruct H. split; [|reflexivity]. eapply value_sets_version; eassumption.
Qed.
Lemma run_range pos ls st :
  (forall m1 l m2, ls = m1 ++ l :: m2 -> sets_version l -> flag m1 (in_package st) = false) ->
  ver_start (run_lines pos ls st) = ver_start st /\ ver_end (run_lines pos ls st) = ver_end st.
Proof.
  revert pos st. induction ls as [|l ls IH]; intros pos st H; [split; reflexivity|].
  rewrite run_lines_cons.
  assert (N : ~ (sets_version l /\ in_package st = true)).
  { intros [V P]. specialize (H [] l ls eq_refl V). cbn in H. congruence. }
  destruct (step_range st pos l N) as [S1 S2]. cbn zeta in *.
  set (st' := match toml_line l with Some p => package_step st (pos, p) | None => st end) in *.
  destruct (IH (pos + List.length l + 1) st') as [I1 I2].
  - intros m1 x m2 -> V. specialize (H (l :: m1) x m2 eq_refl V).
    unfold st'. rewrite step_flag. exact H.
  - now rewrite I1, I2.
Qed.
Lemma width_join ls : ls <> [] -> width ls = S (List.length (join [newline] ls)).
Proof.
  induction ls as [|l ls IH]; [congruence|]. intros _. destruct ls as [|l' ls].
  - cbn. lia.
  - change (join [newline] (l :: l' :: ls)) with (l ++ newline :: join [newline] (l' :: ls)).
    rewrite app_length. cbn [List.length]. specialize (IH ltac:(discriminate)).
    change (width (l :: l' :: ls)) with (List.length l + 1 + width (l' :: ls)). lia.
Qed.

(** Position of the version value in the text. *)
Lemma version_range la b1 b2 val lb w :
  Forall single_line (la ++ (tx "version" ++ b1 ++ tx "=" ++ b2 ++ val ++ w) :: lb) ->
  blank b1 -> blank b2 -> blank w -> val <> [] -> hd_not is_ws val -> hd_not is_ws (rev val) ->
  version_line_at la (tx "version" ++ b1 ++ tx "=" ++ b2 ++ val ++ w) lb ->
  let src := join [newline] (la ++ (tx "version" ++ b1 ++ tx "=" ++ b2 ++ val ++ w) :: lb) in
  let p := width la + 8 + List.length b1 + List.length b2 in
  ver_start (parse_cargo_package src) = p + List.length w /\
  ver_end (parse_cargo_package src) = p + List.length val.
Proof.
  intros SL B1 B2 BW NE H1 H2 (PT & _ & L). cbn zeta. unfold parse_cargo_package, toml_iter.
  rewrite split_join; [|destruct la; discriminate|exact SL].
  set (line := tx "version" ++ b1 ++ tx "=" ++ b2 ++ val ++ w) in *.
  fold (run_lines 0 (la ++ line :: lb) package_init).
  rewrite run_lines_app, run_lines_cons.
  set (st0 := run_lines 0 la package_init).
  assert (P0 : in_package st0 = true) by (unfold st0; rewrite run_flag; now apply flag_package).
  assert (TL : toml_line line = Some (TValue (tx "version" ++ b1) (b2 ++ val ++ w)))
    by (unfold line; now apply toml_line_version).
  rewrite TL.
  match goal with |- ver_start (run_lines ?q lb ?s) = _ /\ _ => destruct (run_range q lb s) as [R1 R2] end.
  - intros m1 x m2 -> V. specialize (L m1 x m2 eq_refl V).
    assert (F : in_package (package_step st0 (0 + width la, TValue (tx "version" ++ b1) (b2 ++ val ++ w))) = true).
    { cbn [package_step]. rewrite P0. destruct (teqb _ _); [reflexivity|]. destruct (teqb _ _); [reflexivity|assumption]. }
    rewrite F. destruct (flag m1 true) eqn:G; [|reflexivity]. exfalso. apply L. apply flag_package.
    rewrite flag_app. change (flag (line :: m1) (flag la false)) with (flag m1 (flag_step (flag la false) line)).
    unfold flag_step. rewrite TL. apply flag_package in PT. now rewrite PT.
  - rewrite R1, R2. cbn [package_step]. rewrite P0, trim_end_version by assumption.
    replace (teqb (tx "version") (tx "name")) with false by reflexivity.
    replace (teqb (tx "version") (tx "version")) with true by (symmetry; apply teqb_refl). cbn [ver_start ver_end].
    rewrite trim_mid by assumption.
    assert (TE : trim_end (b2 ++ val ++ w) = b2 ++ val).
    { rewrite app_assoc, trim_end_app by assumption. apply trim_end_id. rewrite rev_app_distr.
      destruct (rev val) eqn:E; [|exact H2]. apply (f_equal (@rev _)) in E. rewrite rev_involutive in E. cbn in E. congruence. }
    rewrite TE, !app_length. change (List.length (tx "version")) with 7. split; lia.
Qed.

Lemma pkg_nonempty la : in_package_table la -> la <> [].
Proof. intros (l1 & h & l2 & _ & _ & -> & _). destruct l1; discriminate. Qed.
Definition after (lb : list text) : text := match lb with [] => [] | _ => newline :: join [newline] lb end.
Lemma join_around la line lb : la <> [] ->
  join [newline] (la ++ line :: lb) = (join [newline] la ++ [newline]) ++ line ++ after lb.
Proof.
  intros H. rewrite join_app by (assumption || discriminate). rewrite <- app_assoc. cbn [app]. f_equal. f_equal.
  destruct lb as [|x lb]; cbn [after]; [cbn; now rewrite app_nil_r|]. reflexivity.
Qed.
Lemma firstn_len {A} (a b : list A) n : n = List.length a -> firstn n (a ++ b) = a.
Proof. intros ->. rewrite firstn_app, Nat.sub_diag, firstn_O, app_nil_r. apply firstn_all. Qed.
Lemma skipn_len {A} (a b : list A) n : n = List.length a -> skipn n (a ++ b) = b.
Proof. intros ->. rewrite skipn_app, Nat.sub_diag. cbn. now rewrite skipn_all. Qed.

(** A quoted value can only be a prefix of another quoted value followed by a line end if they are
    equal. *)
Lemma quoted_prefix old new rest :
  ~ In """"%char old -> ~ In """"%char new -> single_line old -> (rest = [] \/ exists r, rest = newline :: r) ->
  firstn (List.length (tx """" ++ old ++ tx """")) (tx """" ++ new ++ tx """" ++ rest) = tx """" ++ old ++ tx """" ->
  old = new.
Proof.
  intros Q1 Q2 SL R H. change (tx """") with [""""%char] in H. cbn [app List.length firstn] in H. injection H as H.
  revert new Q2 H. induction old as [|c old IH]; intros new Q2 H.
  - destruct new as [|d new]; [reflexivity|]. cbn in H. injection H as ->. destruct Q2. now left.
  - destruct new as [|d new].
    + cbn in H. injection H as <- H. destruct Q1. now left.
    + cbn in H. injection H as -> H. f_equal. apply IH.
      * intros X; apply Q1; now right.
      * intros X; apply SL; now right.
      * intros X; apply Q2; now right.
      * exact H.
Qed.
Lemma display_no_quote v : ~ In """"%char (toml_display v).
Proof.
  unfold toml_display. intros H. apply in_app_or in H. destruct H as [H|H]; [cbn in H; intuition discriminate|].
  apply in_app_or in H. destruct H as [H|H]; [revert H; now apply dec_lacks|].
  apply in_app_or in H. destruct H as [H|H]; [cbn in H; intuition discriminate|]. revert H; now apply dec_lacks.
Qed.
Lemma quoted_hd (old : text) : hd_not is_ws (tx """" ++ old ++ tx """") /\ hd_not is_ws (rev (tx """" ++ old ++ tx """")).
Proof. split; [reflexivity|]. rewrite !rev_app_distr. reflexivity. Qed.

Definition next_minor (v : version) : version := {| v_major := v_major v; v_minor := v_minor v + 1 |}.

Lemma bump_exact v la b1 b2 old lb :
  let line q := tx "version" ++ b1 ++ tx "=" ++ b2 ++ tx """" ++ q ++ tx """" in
  blank b1 -> blank b2 -> ~ In """"%char old ->
  Forall single_line (la ++ line old :: lb) -> version_line_at la (line old) lb ->
  bump_file v (join [newline] (la ++ line old :: lb)) =
  join [newline] (la ++ line (toml_display (next_minor v)) :: lb).
Proof.
  intros line B1 B2 Q SL VL. set (val q := tx """" ++ q ++ tx """").
  assert (LE : forall q, line q = tx "version" ++ b1 ++ tx "=" ++ b2 ++ val q ++ []) by (intros; unfold line, val; now rewrite app_nil_r).
  assert (NE : val old <> []) by discriminate.
  destruct (quoted_hd old) as [H1 H2].
  assert (VR : _) by (rewrite (LE old) in SL, VL;
    exact (version_range la b1 b2 (val old) lb [] SL B1 B2 (Forall_nil _) NE H1 H2 VL)).
  cbn zeta in VR. rewrite <- (LE old) in VR. destruct VR as [VS VE].
  assert (PN : la <> []) by (destruct VL; now apply pkg_nonempty).
  set (src := join [newline] (la ++ line old :: lb)) in *.
  set (pre := (join [newline] la ++ [newline]) ++ tx "version" ++ b1 ++ tx "=" ++ b2).
  assert (SRC : forall q, join [newline] (la ++ line q :: lb) = pre ++ val q ++ after lb).
  { intros q. rewrite join_around by assumption. unfold pre, line, val. now rewrite <- !app_assoc. }
  assert (PL : width la + 8 + List.length b1 + List.length b2 = List.length pre).
  { unfold pre. rewrite !app_length, width_join by assumption. change (List.length (tx "version")) with 7.
    change (List.length (tx "=")) with 1. cbn [List.length]. lia. }
  rewrite PL in VS, VE. cbn [List.length] in VS. rewrite Nat.add_0_r in VS.
  unfold bump_file, update_file, bump_text. rewrite VS, VE.
  assert (LV : List.length (val old) > 0) by (cbn; lia).
  destruct (Nat.leb_spec (List.length pre + List.length (val old)) (List.length pre)); [lia|].
  unfold src. rewrite (SRC old), (SRC (toml_display (next_minor v))). fold (next_minor v).
  rewrite (firstn_len pre) by reflexivity.
  rewrite (app_assoc pre (val old)). rewrite (skipn_len (pre ++ val old)) by now rewrite app_length.
  set (nv := toml_display (next_minor v)).
  destruct (opt_teqb _ _) eqn:T; cbn [negb].
  - (* counted as unchanged: then nothing needed changing *)
    unfold get_range in T. rewrite !app_length in T.
    replace (List.length pre <=? List.length pre + List.length (val old)) with true in T by (symmetry; apply Nat.leb_le; lia).
    replace (List.length pre + List.length (val old) <=? List.length pre + List.length (val old) + List.length (after lb))
      with true in T by (symmetry; apply Nat.leb_le; lia).
    cbn [andb] in T. rewrite <- app_assoc in T.
    destruct (_ <=? _) in T; [|discriminate].
    cbn [opt_teqb] in T. apply teqb_eq in T.
    rewrite !(skipn_len pre) in T by reflexivity.
    replace (List.length pre + List.length (val old) - List.length pre) with (List.length (val old)) in T by lia.
    rewrite (firstn_len (val old)) in T by reflexivity.
    assert (old = nv) as E.
    { apply (quoted_prefix old nv (after lb)); [assumption|apply display_no_quote| | |].
      - rewrite Forall_forall in SL. assert (X : single_line (line old)) by (apply SL, in_or_app; right; now left).
        intros Y. apply X. unfold line. rewrite !in_app_iff. tauto.
      - destruct lb; [now left|right; eexists; reflexivity].
      - symmetry. exact T. }
    rewrite <- E. now rewrite <- app_assoc.
  - unfold val, nv. now rewrite <- !app_assoc.
Qed.
Lemma bump_none v src :
  (forall la l lb, split_at newline src = la ++ l :: lb -> sets_version l -> ~ in_package_table la) ->
  bump_file v src = src.
Proof.
  intros H. unfold bump_file, update_file, bump_text, parse_cargo_package, toml_iter.
  fold (run_lines 0 (split_at newline src) package_init).
  destruct (run_range 0 (split_at newline src) package_init) as [R1 R2].
  - intros m1 l m2 E V. destruct (flag m1 _) eqn:F; [|reflexivity]. exfalso. apply (H _ _ _ E V). now apply flag_package.
  - rewrite R1, R2. reflexivity.
Qed.
Lemma read_exact v la b1 b2 lb :
  let line := tx "version" ++ b1 ++ tx "=" ++ b2 ++ tx """" ++ toml_display v ++ tx """" in
  blank b1 -> blank b2 -> (v_major v <= 65535)%N -> (v_minor v <= 65535)%N ->
  Forall single_line (la ++ line :: lb) -> version_line_at la line lb ->
  read_version (join [newline] (la ++ line :: lb)) = Some v.
Proof.
  intros line B1 B2 L1 L2 SL VL. set (val := tx """" ++ toml_display v ++ tx """").
  assert (LE : line = tx "version" ++ b1 ++ tx "=" ++ b2 ++ val ++ []) by (unfold line, val; now rewrite app_nil_r).
  destruct (quoted_hd (toml_display v)) as [H1 H2].
  assert (VR : _) by (rewrite LE in SL, VL;
    exact (version_range la b1 b2 val lb [] SL B1 B2 (Forall_nil _) ltac:(discriminate) H1 H2 VL)).
  cbn zeta in VR. rewrite <- LE in VR. destruct VR as [VS VE].
  assert (PN : la <> []) by (destruct VL; now apply pkg_nonempty).
  set (pre := (join [newline] la ++ [newline]) ++ tx "version" ++ b1 ++ tx "=" ++ b2).
  assert (SRC : join [newline] (la ++ line :: lb) = pre ++ val ++ after lb).
  { rewrite join_around by assumption. unfold pre, line, val. now rewrite <- !app_assoc. }
  assert (PL : width la + 8 + List.length b1 + List.length b2 = List.length pre).
  { unfold pre. rewrite !app_length, width_join by assumption. change (List.length (tx "version")) with 7.
    change (List.length (tx "=")) with 1. cbn [List.length]. lia. }
  rewrite PL in VS, VE. cbn [List.length] in VS. rewrite Nat.add_0_r in VS.
  unfold read_version. rewrite VS, VE. rewrite SRC. unfold get_range. rewrite !app_length.
  replace (List.length pre <=? List.length pre + List.length val) with true by (symmetry; apply Nat.leb_le; lia).
  replace (List.length pre + List.length val <=? List.length pre + (List.length val + List.length (after lb)))
    with true by (symmetry; apply Nat.leb_le; lia).
  cbn [andb]. rewrite (skipn_len pre) by reflexivity.
  replace (List.length pre + List.length val - List.length pre) with (List.length val) by lia.
  rewrite (firstn_len val) by reflexivity. unfold val. rewrite strip_pre_app.
  destruct (strip_suf (tx """") (toml_display v ++ tx """")) eqn:E.
  - apply strip_suf_some in E. apply app_inv_tail in E. subst. now apply version_roundtrip.
  - assert (X := proj2 (strip_suf_some (tx """") (toml_display v ++ tx """") (toml_display v)) eq_refl). congruence.
Qed.

(** ** Regions *)
Lemma first_at_swap p a b c : first_at p (a ++ p ++ b) a b -> first_at p (a ++ p ++ c) a c.
Proof.
  intros [_ M]. split; [reflexivity|]. intros a' c' H.
  destruct (Nat.le_gt_cases (List.length a) (List.length a')) as [|G]; [assumption|exfalso].
  (* the earlier occurrence ends before the marker does, so it is in the old text too *)
  assert (E : a ++ p = firstn (List.length (a ++ p)) (a' ++ p ++ c')).
  { rewrite <- H. rewrite app_assoc. symmetry. now apply firstn_len. }
  rewrite app_assoc in E. rewrite firstn_app in E.
  replace (firstn (List.length (a ++ p)) (a' ++ p)) with (a' ++ p) in E
    by (symmetry; apply firstn_all2; rewrite !app_length; lia).
  set (r := firstn _ c') in E. specialize (M a' (r ++ b)).
  rewrite app_assoc, E, <- !app_assoc in M. specialize (M eq_refl). lia.
Qed.
Lemma region_ok start end_ ins src dst ch : update_text_region start end_ ins src = Some (dst, ch) ->
  exists pre old post, first_at start src pre (old ++ end_ ++ post) /\ first_at end_ (old ++ end_ ++ post) old post /\ dst = pre ++ start ++ ins ++ end_ ++ post /\ (ch = false <-> ins = old).
Proof.
  unfold update_text_region. destruct (cut_str start src) as [[pre r]|] eqn:E; [|discriminate].
  destruct (cut_str end_ r) as [[old post]|] eqn:F; [|discriminate]. intros [= <- <-].
  apply cut_str_some in E. apply cut_str_some in F. destruct F as [F1 F2]. subst r.
  exists pre, old, post. split; [assumption|]. split; [now split|]. split; [reflexivity|].
  destruct (teqb ins old) eqn:T; cbn.
  - apply teqb_eq in T. tauto.
  - split; [discriminate|]. intros ->. rewrite teqb_refl in T. discriminate.
Qed.
Lemma region_panics start end_ ins src : update_text_region start end_ ins src = None <->
  forall pre old post, src <> pre ++ start ++ old ++ end_ ++ post.
Proof.
  unfold update_text_region. split.
  - destruct (cut_str start src) as [[pre r]|] eqn:E.
    + destruct (cut_str end_ r) as [[old post]|] eqn:F; [discriminate|]. intros _ pre' old' post' H.
      apply cut_str_some in E. destruct E as [E M]. rewrite cut_str_none in F.
      specialize (M _ _ H). subst src.
      (* the text after the first start marker contains everything after a later one *)
      assert (X : r = skipn (List.length (pre ++ start)) (pre' ++ start ++ old' ++ end_ ++ post')).
      { rewrite <- H. rewrite app_assoc. symmetry. now apply skipn_len. }
      rewrite app_assoc, app_assoc in X. rewrite skipn_app in X.
      replace (List.length (pre ++ start) - List.length ((pre' ++ start) ++ old')) with 0 in X
        by (rewrite !app_length; lia).
      cbn [skipn] in X. now apply F in X.
    + intros _ pre old post H. now apply (proj1 (cut_str_none _ _) E) in H.
  - intros H. destruct (cut_str start src) as [[pre r]|] eqn:E; [|reflexivity].
    destruct (cut_str end_ r) as [[old post]|] eqn:F; [|reflexivity].
    apply cut_str_some in E. apply cut_str_some in F. destruct E as [-> _], F as [-> _].
    exfalso. now apply (H pre old post).
Qed.
(** The inserted text does not complete an end marker early. *)
Definition keeps_end (end_ ins : text) : Prop := forall a b, ins ++ end_ = a ++ end_ ++ b -> b = [].
Lemma region_again start end_ ins src dst ch : keeps_end end_ ins ->
  update_text_region start end_ ins src = Some (dst, ch) ->
  update_text_region start end_ ins dst = Some (dst, false).
Proof.
  intros K H. apply region_ok in H. destruct H as (pre & old & post & F1 & F2 & -> & _).
  unfold update_text_region.
  assert (S1 : cut_str start (pre ++ start ++ ins ++ end_ ++ post) = Some (pre, ins ++ end_ ++ post)).
  { apply cut_str_some. destruct F1 as [E M]. subst src. eapply first_at_swap. split; [reflexivity|exact M]. }
  rewrite S1.
  assert (S2 : cut_str end_ (ins ++ end_ ++ post) = Some (ins, post)).
  { apply cut_str_some. apply (first_at_swap end_ ins []). split; [reflexivity|].
    intros a b H. rewrite app_nil_r in H. assert (X := K _ _ H). subst b.
    apply (f_equal (@List.length _)) in H. rewrite !app_length in H. cbn in H. lia. }
  rewrite S2, teqb_refl. reflexivity.
Qed.
