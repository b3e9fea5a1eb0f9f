(** C44-C48 and C53-C56: the maintainers' tool and the borrow-origin relation. *)
From Verif Require Import Text DevModel DevSpec DevProofs DevProofs2 DevProofs3.
From Coq Require Import Lia Permutation Sorted Relations.

(** ** C44 *)
(** After any history of commands no recorded rename leads to a name that has itself been renamed
    (or that is unknown), provided none did at the start. *)
Theorem lint_renames_never_chain : forall h t,
  (forall a n, t a = Some (Renamed (clippy_lint n)) -> (exists f, t n = Some (Active f)) \/ t n = Some Deprecated) ->
  forall a n, run_history t h a = Some (Renamed (clippy_lint n)) ->
    (forall m, run_history t h n <> Some (Renamed m)) /\ run_history t h n <> None.
Proof.
  intros h t U a n H. assert (V := unchained_history h t U a n H).
  destruct V as [[f V]|V]; rewrite V; split; [intros m| |intros m|]; discriminate.
Qed.
Print Assumptions lint_renames_never_chain.

Definition empty_table : table := fun _ => None.
Example lint_renames_ex :
  let t := run_history empty_table
    [CAdd "a" "a.rs"; CRename "a" "b" (fun f => f); CRename "b" "c" (fun f => f); CUplift "c" "d"]%string in
  t "a"%string = Some (Renamed (rustc_lint "d")) /\ t "b"%string = Some (Renamed (rustc_lint "d")) /\
  t "c"%string = Some (Renamed (rustc_lint "d")).
Proof. vm_compute. repeat split. Qed.

(** Following one rename reaches a current lint as long as no lint that is the target of a rename
    is deprecated. Missing from the full claim: [deprecate] does not look at rename targets. *)
Theorem rename_reaches_current_partial : forall h t,
  (forall a n, t a = Some (Renamed (clippy_lint n)) -> exists f, t n = Some (Active f)) ->
  (forall h1 n h2, h = h1 ++ CDeprecate n :: h2 -> forall a, run_history t h1 a <> Some (Renamed (clippy_lint n))) ->
  forall a n, run_history t h a = Some (Renamed (clippy_lint n)) -> exists f, run_history t h n = Some (Active f).
Proof.
  intros h t R D. change (resolved (run_history t h)). revert t R D.
  induction h as [|c h IH]; intros t R D; [exact R|]. cbn. apply IH.
  - apply resolved_step; [exact R|]. intros n -> a. exact (D [] n h eq_refl a).
  - intros h1 n h2 -> a. exact (D (c :: h1) n h2 eq_refl a).
Qed.
Print Assumptions rename_reaches_current_partial.
Example rename_reaches_current_ex :
  let t := run_history empty_table [CAdd "a" "a.rs"; CRename "a" "b" (fun f => f); CAdd "z" "z.rs"; CDeprecate "z"]%string in
  t "a"%string = Some (Renamed (clippy_lint "b")) /\ t "b"%string = Some (Active "a.rs").
Proof. vm_compute. repeat split. Qed.

(** The full claim is false: rename, then deprecate the new name. *)
Theorem rename_reaches_current_refuted : exists h a n,
  run_history empty_table h a = Some (Renamed (clippy_lint n)) /\ ~ exists f, run_history empty_table h n = Some (Active f).
Proof.
  exists [CAdd "a" "a.rs"; CRename "a" "b" (fun f => f); CDeprecate "b"]%string, "a"%string, "b"%string.
  split; [reflexivity|]. intros [f H]. vm_compute in H. discriminate.
Qed.
Print Assumptions rename_reaches_current_refuted.

(** Where a name leads: an active lint to itself, a renamed one to its target. *)
Definition leads_to (t : table) (a : string) (x : lint_name) : Prop :=
  (exists f, t a = Some (Active f)) /\ x = clippy_lint a \/ t a = Some (Renamed x).
(** A successful rename sends every name that led to the old lint to the new one, leaves where all
    other names lead, and makes the new name current. *)
Theorem rename_redirects : forall t old new mv f, t old = Some (Active f) -> t new = None ->
  exists t', rename t old new mv = (t', true) /\ leads_to t' new (clippy_lint new) /\
  (forall a, leads_to t a (clippy_lint old) -> leads_to t' a (clippy_lint new)) /\
  (forall a x, a <> old -> x <> clippy_lint old -> leads_to t a x -> leads_to t' a x) /\
  (forall a x, leads_to t' a x -> x <> clippy_lint new -> leads_to t a x).
Proof.
  intros t old new mv f A N. rewrite (rename_effect _ _ _ _ f) by assumption. eexists. split; [reflexivity|].
  assert (NO : new <> old) by congruence. split; [|split; [|split]].
  - left. split; [|reflexivity]. exists (mv f). apply upd_same.
  - intros a [[[g H] E]|H].
    + injection E as E. subst a. right. rewrite upd_other by congruence. apply upd_same.
    + assert (a <> new) by congruence. assert (a <> old) by congruence. right. rewrite !upd_other by assumption.
      unfold update_rename_targets. rewrite H. now rewrite (proj2 (lint_name_eqb_eq _ _) eq_refl).
  - intros a x NA NX [[[g H] E]|H].
    + assert (a <> new) by congruence. left. split; [|assumption]. exists g. rewrite !upd_other by assumption. now apply retarget_active.
    + assert (a <> new) by congruence. right. rewrite !upd_other by assumption. unfold update_rename_targets. rewrite H.
      destruct (lint_name_eqb x (clippy_lint old)) eqn:E; [|reflexivity]. now apply lint_name_eqb_eq in E.
  - intros a x L NX. unfold leads_to in L. destruct (String.eqb_spec a new) as [->|Nn].
    { rewrite upd_same in L. destruct L as [[_ E]|E]; [contradiction|discriminate]. }
    rewrite upd_other in L by assumption. destruct (String.eqb_spec a old) as [->|No].
    { rewrite upd_same in L. destruct L as [[[g E] _]|E]; [discriminate|]. injection E as E. subst x. now destruct NX. }
    rewrite upd_other in L by assumption. destruct L as [[[g H] E]|H].
    + left. split; [|assumption]. exists g. now apply retarget_active in H.
    + right. apply retarget_renamed in H. destruct H as (y & Y & [[-> E]|[NE ->]]); [contradiction|assumption].
Qed.
Print Assumptions rename_redirects.
Example rename_redirects_ex :
  let t := run_history empty_table [CAdd "a" "a.rs"; CRename "a" "b" (fun f => f); CAdd "z" "z.rs"]%string in
  t "b"%string = Some (Active "a.rs") /\ t "c"%string = None.
Proof. vm_compute. split; reflexivity. Qed.

(** A rename to an existing lint is reported as done but recorded nowhere. *)
Theorem rename_reported_recorded_refuted : exists t old new mv,
  snd (rename t old new mv) = true /\ fst (rename t old new mv) old <> Some (Renamed (clippy_lint new)).
Proof.
  exists (run_history empty_table [CAdd "a" "a.rs"; CAdd "b" "b.rs"]%string), "a"%string, "b"%string, (fun f => f).
  split; [reflexivity|]. vm_compute. discriminate.
Qed.
Print Assumptions rename_reported_recorded_refuted.

(** ** C45 *)
(** Bumping replaces exactly the quoted version of the [[package]] table by the next minor version,
    when the line holds nothing after the closing quote.  Missing from the full claim: lines with
    trailing blanks, a carriage return or a comment, for which it is false (below). *)
Theorem version_bump_exact_partial : forall v la b1 b2 old lb,
  let line q := tx "version" ++ b1 ++ tx "=" ++ b2 ++ tx """" ++ q ++ tx """" in
  blank b1 -> blank b2 -> ~ In """"%char old ->
  Forall single_line (la ++ line old :: lb) -> version_line_at la (line old) lb ->
  bump_file v (join [newline] (la ++ line old :: lb)) =
  join [newline] (la ++ line (toml_display {| v_major := v_major v; v_minor := v_minor v + 1 |}) :: lb).
Proof. exact bump_exact. Qed.
Print Assumptions version_bump_exact_partial.

(** A manifest whose [[package]] table sets no version is left alone. *)
Theorem version_bump_no_version : forall v src,
  (forall la l lb, split_at newline src = la ++ l :: lb -> sets_version l -> ~ in_package_table la) ->
  bump_file v src = src.
Proof. exact bump_none. Qed.
Print Assumptions version_bump_no_version.

(** The bumped manifest is read back as the bumped version. *)
Theorem version_bump_read_back_partial : forall v la b1 b2 old lb,
  let line q := tx "version" ++ b1 ++ tx "=" ++ b2 ++ tx """" ++ q ++ tx """" in
  blank b1 -> blank b2 -> ~ In """"%char old ->
  Forall single_line (la ++ line old :: lb) -> version_line_at la (line old) lb ->
  (v_major v <= 65535)%N -> (v_minor v + 1 <= 65535)%N ->
  read_version (bump_file v (join [newline] (la ++ line old :: lb))) =
  Some {| v_major := v_major v; v_minor := v_minor v + 1 |}.
Proof.
  intros v la b1 b2 old lb line B1 B2 Q SL VL L1 L2. unfold line in *. rewrite (bump_exact v la b1 b2 old lb B1 B2 Q SL VL).
  apply read_exact; try assumption.
  - rewrite Forall_app in *. destruct SL as [S1 S2]. apply Forall_cons_iff in S2. destruct S2 as [S2 S3].
    split; [assumption|]. constructor; [|assumption]. unfold single_line in *. rewrite !in_app_iff in *. intros X.
    assert (ND : ~ In newline (toml_display (next_minor v))).
    { unfold toml_display. rewrite !in_app_iff. intros [Y|[Y|[Y|Y]]]; [cbn in Y; intuition discriminate|revert Y; now apply dec_lacks|cbn in Y; intuition discriminate|revert Y; now apply dec_lacks]. }
    unfold next_minor in ND. tauto.
  - destruct VL as (P & S & L). split; [assumption|]. split; [exists b1; eexists; split; [assumption|reflexivity]|].
    intros m1 l m2 -> SV IP. apply (L m1 l m2 eq_refl SV). apply flag_package. apply flag_package in IP.
    rewrite flag_app in *. cbn [flag fold_left] in *. unfold flag_step at 2 in IP. unfold flag_step at 2.
    rewrite toml_line_version in * by assumption. exact IP.
Qed.
Print Assumptions version_bump_read_back_partial.
Theorem version_display_parses : forall v, (v_major v <= 65535)%N -> (v_minor v <= 65535)%N ->
  version_parse (toml_display v) = Some v.
Proof. exact version_roundtrip. Qed.
Print Assumptions version_display_parses.

Definition nl_join (l : list string) : text := join [newline] (map tx l).
Example version_bump_ex : bump_file {| v_major := 1; v_minor := 99 |}
  (nl_join ["[package]"; "name = ""x"""; "version = ""0.1.99"""; "[dependencies.y]"; "version = ""2"""; ""]%string) =
  nl_join ["[package]"; "name = ""x"""; "version = ""0.1.100"""; "[dependencies.y]"; "version = ""2"""; ""]%string.
Proof. vm_compute. reflexivity. Qed.
Example version_bump_hyp_ex : version_line_at [tx "[package]"] (tx "version = ""0.1.99""") [tx "[dependencies.y]"; tx "version = ""2"""].
Proof.
  split; [|split].
  - apply flag_package. reflexivity.
  - exists (tx " "), (tx " ""0.1.99"""). split; [repeat constructor|reflexivity].
  - intros m1 l m2 E SV IP. apply flag_package in IP.
    destruct m1 as [|x [|y m1]]; injection E.
    + intros _ <-. destruct SV as (b & v & _ & X). discriminate X.
    + intros _ _ <-. discriminate IP.
    + intros X _ _. destruct m1; discriminate X.
Qed.

(** With a carriage return before the line end the new text keeps the old opening quote. *)
Theorem version_bump_crlf_refuted : exists v src, 
  src = nl_join ["[package]"; "version = ""0.1.9""" ++ String (ascii_of_nat 13) ""; ""]%string /\
  bump_file v src <> nl_join ["[package]"; "version = ""0.1.10""" ++ String (ascii_of_nat 13) ""; ""]%string /\
  bump_file v src = nl_join ["[package]"; "version = """"0.1.10""" ++ String (ascii_of_nat 13) ""; ""]%string.
Proof. exists {| v_major := 1; v_minor := 9 |}. eexists. split; [reflexivity|]. split; [|vm_compute; reflexivity]. vm_compute. discriminate. Qed.
Print Assumptions version_bump_crlf_refuted.
(** A comment after the version is dropped. *)
Theorem version_bump_comment_refuted : exists v src,
  src = nl_join ["[package]"; "version = ""0.1.9"" # keep"]%string /\
  bump_file v src = nl_join ["[package]"; "version = ""0.1.10"""]%string.
Proof. exists {| v_major := 1; v_minor := 9 |}. eexists. split; [reflexivity|vm_compute; reflexivity]. Qed.
Print Assumptions version_bump_comment_refuted.
(** With many trailing blanks the file is not updated at all. *)
Theorem version_bump_skipped_refuted : exists v src,
  src = nl_join ["[package]"; "version = ""0.1.9""       "]%string /\ bump_file v src = src.
Proof. exists {| v_major := 1; v_minor := 9 |}. eexists. split; [reflexivity|vm_compute; reflexivity]. Qed.
Print Assumptions version_bump_skipped_refuted.

(** ** C46 *)
(** The text up to and including the first start marker and from the first following end marker on
    is kept, what is between is replaced, and [unchanged] is reported exactly when the new text is
    the old one. *)
Theorem region_update_exact : forall start end_ ins src dst ch,
  update_text_region start end_ ins src = Some (dst, ch) ->
  exists pre old post, src = pre ++ start ++ old ++ end_ ++ post /\ dst = pre ++ start ++ ins ++ end_ ++ post /\
    (forall a b, src = a ++ start ++ b -> List.length pre <= List.length a) /\
    (forall a b, old ++ end_ ++ post = a ++ end_ ++ b -> List.length old <= List.length a) /\
    (ch = false <-> dst = src).
Proof.
  intros start end_ ins src dst ch H. apply region_ok in H. destruct H as (pre & old & post & [E1 M1] & [_ M2] & -> & C).
  exists pre, old, post. split; [assumption|]. split; [reflexivity|]. split; [assumption|]. split; [assumption|].
  rewrite C, E1. split; [now intros ->|]. intros X. apply app_inv_head, app_inv_head in X. now apply app_inv_tail in X.
Qed.
Print Assumptions region_update_exact.
(** The tool panics exactly when the markers do not both appear in order. *)
Theorem region_update_panics_iff : forall start end_ ins src,
  update_text_region start end_ ins src = None <-> forall pre old post, src <> pre ++ start ++ old ++ end_ ++ post.
Proof. exact region_panics. Qed.
Print Assumptions region_update_panics_iff.
(** Running twice is the same as running once if the inserted text does not complete an end marker
    of its own. Missing from the full claim: that condition, without which it is false. *)
Theorem region_update_idempotent_partial : forall start end_ ins src dst ch,
  (forall a b, ins ++ end_ = a ++ end_ ++ b -> b = []) ->
  update_text_region start end_ ins src = Some (dst, ch) ->
  update_text_region start end_ ins dst = Some (dst, false).
Proof. exact region_again. Qed.
Print Assumptions region_update_idempotent_partial.
Theorem region_update_idempotent_refuted : exists start end_ ins src dst dst',
  update_text_region start end_ ins src = Some (dst, true) /\ update_text_region start end_ ins dst = Some (dst', true) /\ dst <> dst'.
Proof.
  exists (tx "<"), (tx ">"), (tx "a>b"), (tx "<x>"). eexists. eexists.
  split; [vm_compute; reflexivity|]. split; [vm_compute; reflexivity|]. vm_compute. discriminate.
Qed.
Print Assumptions region_update_idempotent_refuted.
(** In check mode the file is never changed and the check fails exactly when a change run would
    alter the file. *)
Theorem check_mode_agrees : forall start end_ ins src,
  (exists pre old post, src = pre ++ start ++ old ++ end_ ++ post) ->
  let update s := match update_text_region start end_ ins s with Some r => r | None => (s, false) end in
  (update_file_checked MCheck update src = FileIs src <-> update_file_checked MChange update src = FileIs src) /\
  (update_file_checked MCheck update src <> FileIs src -> update_file_checked MCheck update src = CheckFailed).
Proof.
  intros start end_ ins src (pre & old & post & E). cbn zeta. unfold update_file_checked.
  destruct (update_text_region start end_ ins src) as [[dst ch]|] eqn:H.
  - apply region_update_exact in H. destruct H as (_ & _ & _ & _ & _ & _ & _ & C). destruct ch.
    + split; [|intros _; reflexivity]. split; [discriminate|]. intros X. injection X as X. apply C in X. discriminate.
    + split; [tauto|]. intros X. now destruct X.
  - exfalso. now apply (proj1 (region_panics _ _ _ _) H) in E.
Qed.
Print Assumptions check_mode_agrees.
Example region_update_ex : update_text_region (tx "over ") (tx " lints") (tx "850") (tx "[There are over 800 lints included]") =
  Some (tx "[There are over 850 lints included]", true).
Proof. vm_compute. reflexivity. Qed.

(** ** C47 *)
(** The iterator ends, its batches put together are the argument list, none is empty, and each is
    within the length limit but for its last argument. *)
Theorem split_args_lossless : forall limit m threads args, 1 <= threads ->
  exists bs, iterates limit m (split_start m threads args) bs /\
  (forall bs', iterates limit m (split_start m threads args) bs' -> bs' = bs) /\
  List.concat bs = args /\ Forall (fun b => b <> []) bs /\
  Forall (fun b => fold_right (fun a n => List.length a + 16 + n) 0 (removelast b) <= limit) bs.
Proof.
  intros limit m threads args T. assert (G := start_good m threads args T).
  destruct (iterates_exists limit m _ _ G (le_n _)) as [bs I]. exists bs. split; [assumption|].
  split; [intros bs' I'; now apply (iterates_det limit m _ _ I')|].
  split; [now apply (iterates_concat limit m _ _ I)|].
  assert (F := iterates_nonempty limit m _ _ I G). split; eapply Forall_impl; try exact F; cbn; tauto.
Qed.
Print Assumptions split_args_lossless.
(** No batch is larger than the size computed for it: from the whole list at the start, and from
    what is left and the threads left after a batch that hit the length limit; and there are at
    most as many batches as threads, plus one for each batch that hit the limit. *)
Theorem split_args_sizes : forall limit m threads args bs, 1 <= threads ->
  iterates limit m (split_start m threads args) bs ->
  let long b := limit <? fold_right (fun a n => List.length a + 16 + n) 0 b in
  (forall pre b post, bs = pre ++ b :: post -> Forall (fun x => long x = false) pre ->
     List.length b <= Nat.max (ceil_div (List.length args) threads) m) /\
  (forall p1 o p2 b post, bs = (p1 ++ [o]) ++ p2 ++ b :: post -> long o = true -> Forall (fun x => long x = false) p2 ->
     List.length b <= Nat.max (ceil_div (List.length (List.concat (p2 ++ b :: post))) (Nat.max 1 (threads - List.length (p1 ++ [o])))) m) /\
  List.length bs <= threads + List.length (filter long bs).
Proof.
  intros limit m threads args bs T I. cbn zeta. assert (G := start_good m threads args T). split; [|split].
  - intros pre b post E F. now apply (iterates_short limit m _ _ I G pre b post).
  - intros p1 o p2 b post -> O F. destruct (iterates_split limit m _ _ _ I G) as (st & G' & I' & _ & S).
    specialize (S p1 o eq_refl O). cbn [split_start s_threads] in S. unfold left_after in S. rewrite <- S.
    now apply (iterates_short limit m _ _ I' G' p2 b post).
  - exact (iterates_count limit m _ _ I G).
Qed.
Print Assumptions split_args_sizes.
Lemma ceil_div_least : forall n t, 1 <= t -> forall q, ceil_div n t <= q <-> n <= q * t.
Proof.
  intros n t H q. split.
  - intros L. etransitivity; [apply ceil_div_ge; eassumption|]. now apply Nat.mul_le_mono_r.
  - intros L. unfold ceil_div. assert (E := Nat.div_mod n t ltac:(lia)). assert (B := Nat.mod_upper_bound n t ltac:(lia)).
    destruct (Nat.eqb_spec (n mod t) 0) as [Z|Z].
    + rewrite Nat.add_0_r. apply Nat.div_le_upper_bound; lia.
    + destruct (Nat.le_gt_cases (n / t + 1) q) as [|X]; [assumption|exfalso].
      assert (q * t <= (n / t) * t) by (apply Nat.mul_le_mono_r; lia). lia.
Qed.
(** [ceil_div] above is the rounded-up quotient. *)
Theorem split_args_size_meaning : forall n t, 1 <= t -> forall q, ceil_div n t <= q <-> n <= q * t.
Proof. exact ceil_div_least. Qed.
Print Assumptions split_args_size_meaning.
Example split_args_ex :
  let run k st := (fix go k st := match k with O => [] | S k => match split_next 40 1 st with (Some b, st') => b :: go k st' | (None, _) => [] end end) k st in
  run 9 (split_start 1 2 (map tx ["a"; "b"; "c"; "d"; "e"; "f"; "g"]%string)) =
  map (map tx) [["a"; "b"; "c"]; ["d"; "e"; "f"]; ["g"]]%string.
Proof. vm_compute. reflexivity. Qed.

(** ** C48 *)
(** The set reported reachable is exactly the set of locals connected by a non-empty chain of edges,
    and the search ends. *)
Theorem reachable_is_closure : forall edges a, exists res, reachable_from edges a = Some res /\
  forall v, In v res <-> clos_trans nat (fun x y => In (x, y) edges) a v.
Proof. exact reachable_ok. Qed.
Print Assumptions reachable_is_closure.
Theorem reachable_add : forall edges a b c d res, reachable_from (rel_add edges a b) c = Some res ->
  In d res <-> clos_trans nat (fun x y => In (x, y) edges \/ (x = a /\ y = b)) c d.
Proof.
  intros edges a b c d res H. destruct (reachable_ok (rel_add edges a b) c) as (res' & H' & E). rewrite H in H'. injection H' as <-.
  rewrite E. unfold connected, rel_add. 
  assert (X : forall x y, In (x, y) (edges ++ [(a, b)]) <-> In (x, y) edges \/ (x = a /\ y = b)).
  { intros x y. rewrite in_app_iff. cbn. split; [intros [?|[Y|[]]]; [now left|injection Y as -> ->; auto]|intros [?|[-> ->]]; auto]. }
  clear H E. split; (induction 1 as [x y Hxy|x y z _ I1 _ I2]; [apply t_step; now apply X|exact (t_trans _ _ _ _ _ I1 I2)]).
Qed.
Print Assumptions reachable_add.
Example reachable_ex :
  exists l, reachable_from [(1, 2); (2, 3); (3, 1); (4, 5)] 1 = Some l /\ In 1 l /\ In 3 l /\ ~ In 5 l.
Proof.
  eexists. split; [vm_compute; reflexivity|]. cbn. split; [auto|]. split; [auto|]. intros X.
  decompose [or] X; (discriminate || assumption).
Qed.

(** ** C53 *)
(** Exactly the entries whose longest lint-name prefix is this lint are collected. *)
Theorem test_files_exact : forall names name entries, In name names ->
  forall e, In e (collect_tests name (ignored_prefixes name names) entries) <-> In e entries /\ owns names name e.
Proof.
  intros names name entries I e. unfold collect_tests. rewrite filter_In. now rewrite collect_owns by assumption.
Qed.
Print Assumptions test_files_exact.
Theorem ui_test_paths_exact : forall names, ui_paths names = map (fun n => tx "tests/ui/" ++ n) names.
Proof. exact ui_paths_ok. Qed.
Print Assumptions ui_test_paths_exact.
(** For tests/ui-toml only the first path is right … *)
Theorem ui_toml_test_paths_partial : forall names,
  map Some (firstn 1 (ui_toml_paths names)) = map (fun n => Some (tx "tests/ui-toml/" ++ n)) (firstn 1 names).
Proof. intros [|n names]; reflexivity. Qed.
Print Assumptions ui_toml_test_paths_partial.
(** … because the buffer is cut back to the length of "tests/ui/". *)
Theorem ui_toml_test_paths_refuted : exists names, ui_toml_paths names <> map (fun n => tx "tests/ui-toml/" ++ n) names /\
  ui_toml_paths names = [tx "tests/ui-toml/large_futures"; tx "tests/ui-large_futures_2"].
Proof. exists [tx "large_futures"; tx "large_futures_2"]. vm_compute. split; [discriminate|reflexivity]. Qed.
Print Assumptions ui_toml_test_paths_refuted.
(** Removing a declaration drops nothing around it but at most one of two newlines on each side. *)
Theorem remove_declaration_keeps : forall pre post, exists a b, remove_declaration pre post = a ++ b /\
  (pre = a \/ pre = a ++ [newline] /\ exists x, a = x ++ [newline]) /\
  (post = b \/ post = newline :: b /\ exists x, b = newline :: x).
Proof. exact remove_declaration_ok. Qed.
Print Assumptions remove_declaration_keeps.
Example test_files_ex :
  let names := map tx ["ptr_arg"; "ptr"; "ptr_as_ptr"]%string in
  collect_tests (tx "ptr") (ignored_prefixes (tx "ptr") names) (map tx ["ptr.rs"; "ptr_arg.rs"; "ptr_x.rs"; "other.rs"; "ptr_as_ptr.fixed"]%string)
  = map tx ["ptr.rs"; "ptr_x.rs"]%string.
Proof. vm_compute. reflexivity. Qed.

(** ** C54 *)
(** Grouping by a key cuts the slice into its maximal runs of equal keys and loses nothing. *)
Theorem slice_groups_partition : forall (A K : Type) (eqb : K -> K -> bool) (key : A -> K),
  (forall a b, eqb a b = true <-> a = b) -> forall l,
  let gs := slice_groups (fun h t => same_count eqb key (key h) t) (List.length l) l in
  List.concat gs = l /\ Forall (fun g => g <> []) gs /\
  (forall g x y, In g gs -> In x g -> In y g -> key x = key y) /\
  (forall g1 g2 u v x y, gs = u ++ g1 :: g2 :: v -> In x g1 -> In y g2 -> key x <> key y).
Proof.
  intros A K eqb key EQ l. cbn zeta.
  destruct (slice_groups_ok A (by_key eqb key) (fun h t => same_count_le A K eqb key (key h) t) (List.length l) l (le_n _)) as [C N].
  destruct (slice_groups_by_key A K eqb key EQ (List.length l) l (le_n _)) as [S D].
  split; [exact C|]. split; [exact N|]. split; [exact S|exact D].
Qed.
Print Assumptions slice_groups_partition.
(** Each module of a crate is declared exactly once, where the path separator is smaller than every
    other byte of a path, as [/] is than letters, digits and [_]. *)
Theorem gen_mods_once_partial : forall sep paths,
  (forall p c, In p paths -> In c p -> nat_of_ascii sep <= nat_of_ascii c) ->
  NoDup (gen_mods sep paths) /\
  forall m, In m (gen_mods sep paths) <->
    m <> [] /\ ~ In sep m /\ exists p, In p paths /\ (p = m \/ exists r, p = m ++ sep :: r).
Proof.
  intros sep paths H. destruct (gen_mods_ok sep paths) as [D I].
  { apply Forall_forall. intros p Hp. apply Forall_forall. intros c Hc. now apply (H p). }
  split; [exact D|]. intros m. rewrite I. split.
  - intros (NE & p & Hp & <-). split; [assumption|]. split; [apply top_lacks|]. exists p. split; [assumption|]. apply top_prefix.
  - intros (NE & NI & p & Hp & E). split; [assumption|]. exists p. split; [assumption|].
    destruct (top_of sep m NI) as [T1 T2]. destruct E as [->|[r ->]]; auto.
Qed.
Print Assumptions gen_mods_once_partial.
(** With the backslash of Windows a module can be declared twice. *)
Theorem gen_mods_once_refuted : exists paths, ~ NoDup (gen_mods "\"%char paths) /\
  gen_mods "\"%char paths = map tx ["op"; "op2"; "op"]%string.
Proof.
  exists (map tx ["op"; "op2"; "op\x"]%string). assert (E : gen_mods "\"%char (map tx ["op"; "op2"; "op\x"]%string) = map tx ["op"; "op2"; "op"]%string) by (vm_compute; reflexivity).
  split; [|exact E]. rewrite E. intros D. inversion D as [|? ? X _]; subst. apply X. right; now left.
Qed.
Print Assumptions gen_mods_once_refuted.
Example gen_mods_ex : gen_mods "/"%char (map tx ["loops/b"; "a"; "loops"; "loops2"; "loops/a"]%string) = map tx ["a"; "loops"; "loops2"]%string.
Proof. vm_compute. reflexivity. Qed.

(** ** C55 *)
(** Formatting the symbol list twice is the same as formatting it once. *)
Theorem fmt_syms_idempotent : forall src dst ch, fmt_syms src = Some (dst, ch) -> fmt_syms dst = Some (dst, false).
Proof. exact fmt_syms_again. Qed.
Print Assumptions fmt_syms_idempotent.
(** It only rewrites the list: same text around, the same entries, in order. *)
Theorem fmt_syms_lossless : forall src dst ch, fmt_syms src = Some (dst, ch) ->
  exists pre conf post ls, src = pre ++ syms_start ++ conf ++ syms_end ++ post /\
    dst = pre ++ syms_start ++ tx "    " ++ join (tx "," ++ [newline] ++ tx "    ") ls ++ tx "," ++ syms_end ++ post /\
    Permutation (map sym_entry (tlines conf)) ls /\ StronglySorted text_le ls /\ (ch = false <-> dst = src).
Proof.
  intros src dst ch. unfold fmt_syms. destruct (cut_str syms_start src) as [[pre r]|] eqn:E; [|discriminate].
  destruct (cut_str syms_end r) as [[conf post]|] eqn:F; [|discriminate]. intros H.
  apply cut_str_some in E. apply cut_str_some in F. destruct E as [-> _], F as [-> _].
  exists pre, conf, post, (sort_by (fun x => x) (map sym_entry (tlines conf))). split; [reflexivity|].
  assert (HD := f_equal (fun o => match o with Some (d, _) => d | None => nil end) H).
  assert (HC := f_equal (fun o => match o with Some (_, c) => c | None => true end) H). cbv beta iota zeta in HD, HC. clear H.
  split; [now rewrite <- HD|]. split; [apply sort_perm|]. split; [apply sort_sorted|].
  rewrite HD in HC. rewrite <- HC. destruct (teqb _ dst) eqn:T; cbn [negb].
  - apply teqb_eq in T. split; [intros _; now symmetry|reflexivity].
  - split; [discriminate|]. intros X. symmetry in X. apply teqb_eq in X. congruence.
Qed.
Print Assumptions fmt_syms_lossless.
Example fmt_syms_ex : fmt_syms (nl_join ["x"; "generate! {"; "  b ,"; "a"; "}"; "y"]%string) = Some (nl_join ["x"; "generate! {"; "    a,"; "    b,"; "}"; "y"]%string, true).
Proof. vm_compute. reflexivity. Qed.

(** ** C56 *)
(** The line number reported for an offset is one more than the newlines before it. *)
Theorem offset_to_line_exact : forall t offset, offset <= List.length t ->
  offset_to_line t offset = 1 + count_occ ascii_dec (firstn offset t) newline.
Proof. exact offset_to_line_ok. Qed.
Print Assumptions offset_to_line_exact.
Example offset_to_line_ex : offset_to_line (nl_join ["ab"; "cd"; "ef"]%string) 5 = 2 /\ offset_to_line (nl_join ["ab"; "cd"; "ef"]%string) 6 = 3.
Proof. vm_compute. split; reflexivity. Qed.
