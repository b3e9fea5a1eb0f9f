(** C78 to C83: tabs in doc comments, counted lines, runs of lintcheck, lint groups, versions of packages, conditions of `cfg`. *)
From Verif Require Import DevSpec DevProofs3.
From Verif Require Import TabsProofs LinesProofs DiffProofs CargoProofs CfgProofs.
From Coq Require Import Lia Permutation Sorted.

(** ** C78 *)
(** All edits together replace every tab of the comment by four spaces and touch nothing else; [delimiter] is `///`, `//!`, `/**` or `/*!`. *)
Theorem tabs_replaced delimiter comment rest : List.length delimiter = 3 ->
  apply (warn_if_tabs_in_doc comment) 0 (delimiter ++ comment ++ rest) = delimiter ++ untabbed comment ++ rest.
Proof.
  intros L. rewrite <- (loop_apply (S (List.length comment)) 0 comment rest 3) by lia. unfold warn_if_tabs_in_doc, get_chunks_of_tabs. destruct (chunks_loop _ 0 comment) as [|[lo hi] r] eqn:E; [reflexivity|].
  assert (LH : lo < hi). { assert (J : In (lo, hi) (chunks_loop (S (List.length comment)) (List.length (@nil ascii)) comment)) by (cbn [List.length]; rewrite E; left; reflexivity). apply loop_runs in J; [|lia|intros; discriminate]. apply J. }
  cbn [map apply]. rewrite !Nat.sub_0_r. replace (3 + 0) with 3 by lia. replace (3 + lo - 3) with lo by lia. replace (3 + hi - 3) with hi by lia. rewrite firstn_app, skipn_app, L, firstn_all2, skipn_all2 by lia. replace (3 + lo - 3) with lo by lia. replace (3 + hi - 3) with hi by lia. rewrite <- app_assoc. reflexivity.
Qed.
Print Assumptions tabs_replaced.
(** What is reported are the runs of tabs, each as a whole. *)
Theorem tabs_runs comment lo hi : In (lo, hi) (get_chunks_of_tabs comment) <-> maximal_run comment lo hi.
Proof. unfold get_chunks_of_tabs. rewrite (loop_runs (S (List.length comment)) [] comment ltac:(lia) ltac:(intros; discriminate) lo hi). cbn. split; [intros [H _]; exact H|intros H; split; [exact H|lia]]. Qed.
Print Assumptions tabs_runs.
Example tabs_ex : get_chunks_of_tabs (tx "sd" ++ [tab] ++ tx "asd" ++ [tab; tab] ++ tx "aa") = [(2, 3); (6, 8)] /\
  apply (warn_if_tabs_in_doc ([tab] ++ tx "a" ++ [tab; tab])) 0 (tx "///" ++ ([tab] ++ tx "a" ++ [tab; tab]) ++ [newline]) = tx "///    a        " ++ [newline].
Proof. split; reflexivity. Qed.

(** ** C79 *)
(** The number that `too_many_lines` compares with its threshold is the number of lines with something outside of comments.  Missing: strings, and comments in comments; refuted below. *)
Theorem too_many_lines_count_partial is_block src : simple (without_braces is_block src) = true -> line_count is_block src = lines_with_code (without_braces is_block src).
Proof. apply line_count_ok. Qed.
Print Assumptions too_many_lines_count_partial.
Definition lines_text (l : list string) : text := join [newline] (map tx l).
Example too_many_lines_ex : let src := lines_text ["{"; "  // a"; "  f(); /* b"; " c */ g(); // d"; ""; "  /* e */ /* f"; "  */"; "  h / i"; "}"]%string in
  simple (without_braces true src) = true /\ line_count true src = 3.
Proof. split; reflexivity. Qed.
(** A comment in a comment: `g();` counts as code although the outer comment is open.  A string with `/*`: the lines after it do not count. *)
Theorem too_many_lines_nested_refuted : exists src, line_count true src <> lines_with_code (without_braces true src).
Proof. exists (lines_text ["{"; "/* a /* b */"; "g();"; "*/"; "}"]%string). vm_compute. discriminate. Qed.
Print Assumptions too_many_lines_nested_refuted.
Theorem too_many_lines_string_refuted : exists src, line_count true src = 1 /\ lines_with_code (without_braces true src) = 3.
Proof. exists (lines_text ["{"; "f(""/*"");"; "g();"; "h();"; "}"]%string). vm_compute. auto. Qed.
Print Assumptions too_many_lines_string_refuted.

(** ** C80 *)
(** What is written for a run are its warnings in order, those of one lint at one place in the order they came. *)
Theorem lintcheck_output l : Permutation l (output l) /\ in_order (output l) /\ forall k, filter (fun w => at_place w k) (output l) = filter (fun w => at_place w k) l.
Proof. destruct (output_ok l). split; [assumption|]. split; [assumption|]. intros k. apply output_stable. Qed.
Print Assumptions lintcheck_output.
(** For each lint and place: the warnings of both runs are paired in order, what is left over is removed or added, and pairs with different texts are changed. *)
Theorem lintcheck_diff_places old new k : in_order old -> in_order new ->
  let o := filter (fun w => at_place w k) old in let n := filter (fun w => at_place w k) new in
  filter (fun w => at_place w k) (flat_map l_removed (diff old new)) = skipn (List.length n) o /\
  filter (fun w => at_place w k) (flat_map l_added (diff old new)) = skipn (List.length o) n /\
  filter (fun p => at_place (fst p) k) (flat_map l_changed (diff old new)) = filter (fun p => negb (teqb (w_rendered (fst p)) (w_rendered (snd p)))) (combine o n).
Proof.
  intros SO SN. destruct (merge_places k _ old new (Nat.le_refl _) SO SN) as (H1 & H2 & H3). cbn zeta in *. rewrite diff_added, diff_removed, diff_changed, H1, H2, filter_comm, H3. auto.
Qed.
Print Assumptions lintcheck_diff_places.
(** One row for each lint with a difference, in order of the names; its entries are of that lint; a change is of one place and of different texts. *)
Theorem lintcheck_diff_rows old new : in_order old -> in_order new -> StronglySorted text_lt (map l_name (diff old new)) /\
  (forall l, In l (diff old new) -> (forall w, In w (l_added l) \/ In w (l_removed l) -> w_name w = l_name l) /\
     (forall o n, In (o, n) (l_changed l) -> w_name o = l_name l /\ same_place o n /\ w_rendered o <> w_rendered n) /\ ~ (l_added l = [] /\ l_removed l = [] /\ l_changed l = [])).
Proof. apply diff_rows. Qed.
Print Assumptions lintcheck_diff_rows.
(** Nothing is reported if and only if both runs gave the same texts at the same places. *)
Theorem lintcheck_diff_none old new : in_order old -> in_order new ->
  (diff old new = [] <-> forall k, map w_rendered (filter (fun w => at_place w k) old) = map w_rendered (filter (fun w => at_place w k) new)).
Proof.
  intros SO SN. destruct (diff_rows old new SO SN) as [_ ROWS]. split.
  - intros E k. destruct (lintcheck_diff_places old new k SO SN) as (H1 & H2 & H3). rewrite E in *. cbn [flat_map filter] in *. set (o := filter (fun w => at_place w k) old) in *. set (n := filter (fun w => at_place w k) new) in *. clearbody o n. clear -H1 H2 H3.
    revert n H1 H2 H3. induction o as [|x o IH]; intros [|y n] H1 H2 H3; try discriminate; [reflexivity|]. cbn [combine filter fst snd] in H3. destruct (teqb (w_rendered x) (w_rendered y)) eqn:T; [|discriminate H3]. apply teqb_eq in T. cbn [map]. rewrite T. f_equal. apply IH; assumption.
  - intros H. destruct (diff old new) as [|l ls] eqn:E; [reflexivity|]. exfalso. destruct (ROWS l (or_introl eq_refl)) as (N & C & NE). apply NE.
    assert (PL : forall k, filter (fun w => at_place w k) (flat_map l_removed (diff old new)) = [] /\ filter (fun w => at_place w k) (flat_map l_added (diff old new)) = [] /\ filter (fun p => at_place (fst p) k) (flat_map l_changed (diff old new)) = []).
    { intros k. destruct (lintcheck_diff_places old new k SO SN) as (H1 & H2 & H3). rewrite H1, H2, H3. specialize (H k). assert (LEN : List.length (filter (fun w => at_place w k) old) = List.length (filter (fun w => at_place w k) new)) by (rewrite <- (map_length w_rendered), H; apply map_length).
      split; [rewrite <- LEN; apply skipn_all|]. split; [rewrite LEN; apply skipn_all|]. revert H. generalize (filter (fun w => at_place w k) old) (filter (fun w => at_place w k) new). induction l0 as [|x o IH]; intros [|y n] Q; try reflexivity. cbn [map] in Q. injection Q as Q1 Q2. cbn [combine filter fst snd]. rewrite Q1, teqb_refl. cbn. apply IH, Q2. }
    assert (AT : forall w, at_place w w = true) by (intros w; apply at_place_iff; split; reflexivity).
    rewrite E in PL. split; [|split].
    + destruct (l_added l) as [|w r] eqn:A; [reflexivity|]. destruct (PL w) as (_ & P & _). assert (J : In w (filter (fun v => at_place v w) (flat_map l_added (l :: ls)))) by (apply filter_In; split; [cbn; rewrite A; left; reflexivity|apply AT]). rewrite P in J. destruct J.
    + destruct (l_removed l) as [|w r] eqn:A; [reflexivity|]. destruct (PL w) as (P & _ & _). assert (J : In w (filter (fun v => at_place v w) (flat_map l_removed (l :: ls)))) by (apply filter_In; split; [cbn; rewrite A; left; reflexivity|apply AT]). rewrite P in J. destruct J.
    + destruct (l_changed l) as [|[o n] r] eqn:A; [reflexivity|]. destruct (PL o) as (_ & _ & P). assert (J : In (o, n) (filter (fun v => at_place (fst v) o) (flat_map l_changed (l :: ls)))) by (apply filter_In; split; [cbn; rewrite A; left; reflexivity|apply AT]). rewrite P in J. destruct J.
Qed.
Print Assumptions lintcheck_diff_none.
(** At least five entries of each kind are shown for each lint, the first ones, and the number of the others is right. *)
Theorem lintcheck_truncate {A} (truncate : bool) (lints : nat) (l : list A) : lints <> 0 ->
  exists rest, l = fst (shown (truncate_after truncate lints) l) ++ rest /\ List.length rest = snd (shown (truncate_after truncate lints) l) /\ (rest <> [] -> 5 <= List.length (fst (shown (truncate_after truncate lints) l)) <= 100).
Proof.
  intros NZ. destruct truncate; cbn [truncate_after shown]; [|exists []; rewrite app_nil_r; repeat split; congruence].
  set (m := Nat.max (Nat.min 300 (1000 / lints)) 15 / 3). assert (M : 5 <= m <= 100). { subst m. split; [apply (Nat.div_le_lower_bound _ 3 5); lia|apply (Nat.div_le_upper_bound _ 3 100); lia]. } clearbody m.
  destruct (Nat.ltb_spec m (List.length l)); cbn [fst snd]; [|exists []; rewrite app_nil_r; repeat split; congruence]. exists (skipn m l). split; [symmetry; apply firstn_skipn|]. split; [apply skipn_length|]. intros _. rewrite firstn_length. lia.
Qed.
Print Assumptions lintcheck_truncate.
Definition of_lint (x : text) (w : warning) : bool := teqb (w_name w) x.
Lemma merge_counts x : forall s old new, List.length old + List.length new <= s ->
  List.length (filter (of_lint x) (rights (merge_join old new))) + List.length (filter (of_lint x) old) = List.length (filter (of_lint x) (lefts (merge_join old new))) + List.length (filter (of_lint x) new).
Proof.
  induction s as [|s IH]; intros old new L; rewrite merge_join_eq.
  - destruct old, new; cbn in L; try lia. reflexivity.
  - destruct old as [|o old]; [rewrite rights_map, lefts_right; cbn; lia|]. destruct new as [|n new]; [rewrite rights_left, lefts_map; cbn; lia|].
    cbn in L. destruct (key_cmp_spec o n) as [[E _]|_|_]; change (rights (Both o n :: merge_join old new)) with (rights (merge_join old new)) || change (rights (Left o :: merge_join old (n :: new))) with (rights (merge_join old (n :: new))) || change (rights (Right n :: merge_join (o :: old) new)) with (n :: rights (merge_join (o :: old) new));
    change (lefts (Both o n :: merge_join old new)) with (lefts (merge_join old new)) || change (lefts (Left o :: merge_join old (n :: new))) with (o :: lefts (merge_join old (n :: new))) || change (lefts (Right n :: merge_join (o :: old) new)) with (lefts (merge_join (o :: old) new)).
    + specialize (IH old new ltac:(lia)).  cbn [filter]. replace (of_lint x n) with (of_lint x o) by (unfold of_lint; congruence). destruct (of_lint x o); cbn [List.length]; lia.
    + specialize (IH old (n :: new) ltac:(cbn; lia)).  cbn [filter] in *. destruct (of_lint x o); cbn [List.length] in *; lia.
    + specialize (IH (o :: old) new ltac:(cbn; lia)).  cbn [filter] in *. destruct (of_lint x n); cbn [List.length] in *; lia.
Qed.
Lemma row_alone {A} (f : lint_warnings -> list A) (key : A -> bool) ls l : NoDup (map l_name ls) -> In l ls ->
  (forall r w, In r ls -> In w (f r) -> key w = teqb (l_name r) (l_name l)) -> filter key (flat_map f ls) = f l.
Proof.
  intros ND J K. induction ls as [|r ls IH]; [destruct J|]. cbn [flat_map]. rewrite filter_app. inversion ND as [|? ? N ND']; subst.
  assert (AL : forall xs, (forall w, In w xs -> key w = true) -> filter key xs = xs) by (induction xs as [|w xs IHx]; intros H; [reflexivity|]; cbn; rewrite (H w (or_introl eq_refl)), IHx by (intros; apply H; right; assumption); reflexivity).
  assert (NO : forall xs, (forall w, In w xs -> key w = false) -> filter key xs = []) by (induction xs as [|w xs IHx]; intros H; [reflexivity|]; cbn; rewrite (H w (or_introl eq_refl)), IHx by (intros; apply H; right; assumption); reflexivity).
  destruct J as [->|J].
  - rewrite (AL (f l)), (NO (flat_map f ls)); [apply app_nil_r| |].
    + intros w W. apply in_flat_map in W. destruct W as (q & Q & W). rewrite (K q w (or_intror Q) W). destruct (teqb _ _) eqn:T; [|reflexivity]. apply teqb_eq in T. destruct N. rewrite <- T. apply in_map, Q.
    + intros w W. rewrite (K l w (or_introl eq_refl) W). apply teqb_refl.
  - rewrite (NO (f r)), IH; auto.
    + intros q w Q. apply K. right. exact Q.
    + intros w W. rewrite (K r w (or_introl eq_refl) W). destruct (teqb _ _) eqn:T; [|reflexivity]. apply teqb_eq in T. destruct N. rewrite T. apply in_map, J.
Qed.
(** The counts shown for a lint: what was added less what was removed is the difference of the numbers of its warnings; of the changes it counts all. *)
Theorem lintcheck_summary old new x a r c : in_order old -> in_order new -> In (x, a, r, c) (summary (diff old new)) ->
  let count l := List.length (filter (fun w => teqb (w_name w) x) l) in
  a + count old = r + count new /\ a <= count new /\ r <= count old /\
  c = List.length (filter (fun p => teqb (w_name (fst p)) x) (flat_map l_changed (diff old new))).
Proof.
  intros SO SN J count. destruct (lintcheck_diff_rows old new SO SN) as [ST ROWS]. unfold summary in J. apply in_map_iff in J. destruct J as (l & E & J). injection E as <- <- <- <-.
  assert (ND : NoDup (map l_name (diff old new))).
  { clear -ST. induction ST as [|y ys _ IH F]; constructor; [|exact IH]. intros J. rewrite Forall_forall in F. exact (text_lt_irrefl _ (F _ J)). }
  assert (KA : filter (of_lint (l_name l)) (flat_map l_added (diff old new)) = l_added l).
  { apply row_alone; auto. intros q w Q W. unfold of_lint. destruct (ROWS q Q) as (N & _). rewrite (N w (or_introl W)). reflexivity. }
  assert (KR : filter (of_lint (l_name l)) (flat_map l_removed (diff old new)) = l_removed l).
  { apply row_alone; auto. intros q w Q W. unfold of_lint. destruct (ROWS q Q) as (N & _). rewrite (N w (or_intror W)). reflexivity. }
  assert (KC : filter (fun p => teqb (w_name (fst p)) (l_name l)) (flat_map l_changed (diff old new)) = l_changed l).
  { apply row_alone; auto. intros q [o n] Q W. destruct (ROWS q Q) as (_ & N & _). destruct (N _ _ W) as [NE _]. cbn [fst]. rewrite NE. reflexivity. }
  pose proof (merge_counts (l_name l) _ old new (Nat.le_refl _)) as M. rewrite <- diff_added, <- diff_removed, KA, KR in M. rewrite KC.
  unfold of_lint in M. fold (count old) in M. fold (count new) in M. split; [exact M|].
  assert (AR : List.length (l_added l) <= count new).
  { rewrite <- KA, diff_added. clear. unfold count. generalize (l_name l) as x. intros x. change (fun w => teqb (w_name w) x) with (of_lint x).
    assert (G : forall s old new, List.length old + List.length new <= s -> List.length (filter (of_lint x) (rights (merge_join old new))) <= List.length (filter (of_lint x) new)).
    { induction s as [|s IH]; intros o n L; rewrite merge_join_eq.
      - destruct o, n; cbn in L; try lia; cbn; lia.
      - destruct o as [|u o]; [rewrite rights_map; lia|]. destruct n as [|v n]; [rewrite rights_left; cbn; lia|]. cbn in L. destruct (key_cmp u v);
        [change (rights (Both u v :: merge_join o n)) with (rights (merge_join o n))|change (rights (Left u :: merge_join o (v :: n))) with (rights (merge_join o (v :: n)))|change (rights (Right v :: merge_join (u :: o) n)) with (v :: rights (merge_join (u :: o) n))].
        + specialize (IH o n ltac:(lia)).  cbn [filter]. destruct (of_lint x v); cbn [List.length]; lia.
        + exact (IH o (v :: n) ltac:(cbn; lia)).
        + specialize (IH (u :: o) n ltac:(cbn; lia)).  cbn [filter]. destruct (of_lint x v); cbn [List.length]; lia. }
    exact (G _ old new (Nat.le_refl _)). }
  repeat split; [exact AR|lia].
Qed.
Print Assumptions lintcheck_summary.
Definition warn (name place text_ : string) : warning := {| w_name := tx name; w_file_line := tx place; w_url := tx ""; w_rendered := tx text_ |}.
Example lintcheck_ex : let old := output [warn "b" "x:1" "p"; warn "a" "y:2" "q"; warn "a" "x:1" "r"; warn "a" "x:1" "s"] in
  let new := output [warn "c" "x:1" "p"; warn "b" "x:1" "p"; warn "a" "x:1" "t"; warn "a" "y:2" "q"] in
  in_order old /\ in_order new /\ summary (diff old new) = [(tx "a", 0, 1, 1); (tx "c", 1, 0, 0)].
Proof. split; [apply output_ok|]. split; [apply output_ok|reflexivity]. Qed.
(** Two warnings at one place that come in another order are reported as changed. *)
Theorem lintcheck_order_refuted : exists old new, Permutation old new /\ diff (output old) (output new) <> [].
Proof. exists [warn "a" "x:1" "p"; warn "a" "x:1" "q"], [warn "a" "x:1" "q"; warn "a" "x:1" "p"]. split; [apply perm_swap|]. vm_compute. discriminate. Qed.
Print Assumptions lintcheck_order_refuted.

(** ** C81 *)
(** Without a report the level of every lint is the same in whatever order Cargo passes entries of one priority.  Missing: two groups of one priority; `warnings`, which is not a group of lints, is left out by the code. *)
Theorem lint_groups_unambiguous_partial known members table flags flags' x : NoDup (map fst table) -> ~ In (tx "warnings") (map fst table) -> check_table known table = [] ->
  (forall g gc h hc, In (g, gc) table -> In (h, hc) table -> is_group known g = true -> is_group known h = true -> priority gc = priority hc -> c_level gc = c_level hc) ->
  passed table flags -> passed table flags' -> level known members flags x = level known members flags' x.
Proof. intros ND NW CH GG. apply unambiguous; assumption. Qed.
Print Assumptions lint_groups_unambiguous_partial.
(** The priority suggested for a group is below that of every lint, so that none is overridden by the group.  Missing: lints of the least priority. *)
Theorem lint_groups_suggestion_partial known table g p conflict low : In (g, p, conflict, low) (check_table known table) ->
  forall l lc, In (l, lc) table -> is_group known l = false -> l <> tx "warnings" -> (i64_min < priority lc)%Z -> (low < priority lc)%Z.
Proof.
  intros J l lc JL NG NW M. unfold check_table in J. apply in_flat_map in J. destruct J as ([g' gc] & _ & J). cbv beta iota in J. destruct (rfind _ _) as [[c cc]|]; [|destruct J]. destruct J as [J|[]]. injection J as _ _ _ <-.
  apply (low_below _ l); [|exact M]. unfold lints_of, considered. apply filter_In. split; [|cbn; rewrite NG; reflexivity]. apply filter_In. split; [exact JL|]. cbn [fst]. destruct (teqb l (tx "warnings")) eqn:T; [apply teqb_eq in T; contradiction|reflexivity].
Qed.
Print Assumptions lint_groups_suggestion_partial.
Definition cfg_of (lvl : string) (p : Z) : config := {| c_level := tx lvl; c_priority := Some p |}.
Example lint_groups_ex : let known := [tx "pedantic"; tx "style"] in let table := [(tx "pedantic", {| c_level := tx "warn"; c_priority := None |}); (tx "similar_names", {| c_level := tx "allow"; c_priority := None |}); (tx "style", cfg_of "warn" (-2))] in
  check_table known table = [(tx "pedantic", 0%Z, tx "similar_names", (-1)%Z)] /\ check_table known (set_priority (tx "pedantic") (-1) table) = [] /\
  level known (fun _ _ => true) (rev (set_priority (tx "pedantic") (-1) table)) (tx "similar_names") = Some (tx "warn").
Proof. repeat split; reflexivity. Qed.
(** The least priority: the suggestion changes nothing. *)
Theorem lint_groups_least_refuted : exists known table g p c low, In (g, p, c, low) (check_table known table) /\ In (g, p, c, low) (check_table known (set_priority g low table)).
Proof.
  exists [tx "pedantic"], [(tx "pedantic", cfg_of "warn" i64_min); (tx "similar_names", cfg_of "allow" i64_min)], (tx "pedantic"), i64_min, (tx "similar_names"), i64_min. split; vm_compute; left; reflexivity.
Qed.
Print Assumptions lint_groups_least_refuted.
(** Two groups of different priorities get the same one; what decided before is open afterwards. *)
Theorem lint_groups_order_lost_refuted : exists known members table fixed, fixed = fold_left (fun t '(g, _, _, low) => set_priority g low t) (check_table known table) table /\
  (forall g gc h hc, In (g, gc) table -> In (h, hc) table -> is_group known g = true -> is_group known h = true -> priority gc = priority hc -> c_level gc = c_level hc) /\
  exists flags flags' x, passed fixed flags /\ passed fixed flags' /\ level known members flags x <> level known members flags' x.
Proof.
  exists [tx "g"; tx "h"], (fun _ _ => true), [(tx "g", cfg_of "allow" 0); (tx "h", cfg_of "warn" 1); (tx "k", cfg_of "deny" 0); (tx "l", cfg_of "deny" 1)]. eexists. split; [vm_compute; reflexivity|]. split.
  - intros g gc h hc [A|[A|[A|[A|[]]]]] [B|[B|[B|[B|[]]]]] G H P; injection A as <- <-; injection B as <- <-; try discriminate G; try discriminate H; try discriminate P; reflexivity.
  - exists [(tx "g", cfg_of "allow" (-1)); (tx "h", cfg_of "warn" (-1)); (tx "k", cfg_of "deny" 0); (tx "l", cfg_of "deny" 1)], [(tx "h", cfg_of "warn" (-1)); (tx "g", cfg_of "allow" (-1)); (tx "k", cfg_of "deny" 0); (tx "l", cfg_of "deny" 1)], (tx "x").
    split; [split; [reflexivity|repeat constructor; vm_compute; discriminate]|]. split; [split; [apply perm_swap|repeat constructor; vm_compute; discriminate]|]. vm_compute. discriminate.
Qed.
Print Assumptions lint_groups_order_lost_refuted.

(** ** C82 *)
(** The recursion ends for dependencies without cycles, and finds whether there is a chain of normal dependencies. *)
Theorem is_normal_dep_correct nodes local (rank : nat -> nat) : (forall n d, normal_edge nodes n d -> rank n < rank d) ->
  forall dep fuel, rank dep < fuel -> exists b, is_normal_dep fuel nodes local dep = Some b /\ (b = true <-> reached nodes local dep).
Proof. intros RK dep fuel L. apply (normal_dep_ok nodes local rank RK fuel dep L). Qed.
Print Assumptions is_normal_dep_correct.
(** Reported are exactly the packages that are not allowed and come more than once, with all versions, if all of these are normal dependencies of the local package.
    Missing: several packages with the name of the local one. *)
Theorem multiple_crate_versions_partial normal packages local_name allowed me : In me packages -> underscored (pk_name me) = local_name ->
  (forall p, In p packages -> underscored (pk_name p) = local_name -> p = me) -> forall name versions,
  In (name, versions) (check_versions normal packages local_name allowed) <->
  (let group := filter (fun p => teqb (pk_name p) name) packages in
   ~ In name allowed /\ 2 <= List.length group /\ (forall p, In p group -> normal (pk_id me) (pk_id p) = true) /\ Permutation (map pk_version group) versions /\ StronglySorted le versions).
Proof. apply check_versions_ok. Qed.
Print Assumptions multiple_crate_versions_partial.
Definition pack (name : string) (id v : nat) : package := {| pk_name := tx name; pk_id := id; pk_version := v |}.
Definition graph0 : list node := [{| n_id := 0; n_deps := [(1, [true]); (2, [true]); (3, [false])] |}; {| n_id := 1; n_deps := [(4, [false; true])] |}; {| n_id := 2; n_deps := [(5, [true])] |}; {| n_id := 3; n_deps := [(6, [true])] |}].
Definition normal0 (nodes : list node) (local dep : nat) : bool := match is_normal_dep 9 nodes local dep with Some b => b | None => false end.
Lemma graph0_rank n d : normal_edge graph0 n d -> n < d.
Proof. intros (nd & kinds & [<-|[<-|[<-|[<-|[]]]]] & <- & J & T); cbn in J; repeat (destruct J as [J|J]; [injection J as <- <-; cbn; lia|]); destruct J. Qed.
Example multiple_crate_versions_ex : let packages := [pack "my-crate" 0 1; pack "w" 4 7; pack "u" 2 0; pack "w" 5 3; pack "v" 1 0] in
  is_normal_dep 7 graph0 0 4 = Some true /\ is_normal_dep 7 graph0 0 6 = Some false /\ check_versions (normal0 graph0) packages (tx "my_crate") [] = [(tx "w", [3; 7])] /\
  check_versions (normal0 graph0) packages (tx "my_crate") [tx "w"] = [].
Proof. repeat split; reflexivity. Qed.
(** With a cycle of normal dependencies the recursion does not end. *)
Theorem is_normal_dep_cycle_refuted : exists nodes local dep, forall fuel, is_normal_dep fuel nodes local dep = None.
Proof.
  exists [{| n_id := 1; n_deps := [(2, [true])] |}; {| n_id := 2; n_deps := [(1, [true])] |}], 0, 1. assert (H : forall fuel, is_normal_dep fuel [{| n_id := 1; n_deps := [(2, [true])] |}; {| n_id := 2; n_deps := [(1, [true])] |}] 0 1 = None /\ is_normal_dep fuel [{| n_id := 1; n_deps := [(2, [true])] |}; {| n_id := 2; n_deps := [(1, [true])] |}] 0 2 = None).
  { induction fuel as [|fuel [I1 I2]]; [split; reflexivity|]. split; cbn in *; [rewrite I2|rewrite I1]; reflexivity. }
  intros fuel. apply H.
Qed.
Print Assumptions is_normal_dep_cycle_refuted.
(** Two versions are normal dependencies, a third one is not: nothing is reported.  A package of the name of the local one, in an older version: the dependencies of that are looked at. *)
Theorem multiple_crate_versions_third_refuted : exists nodes packages local_name name v w p q, In (pack name p v) packages /\ In (pack name q w) packages /\ v <> w /\ reached nodes 0 p /\ reached nodes 0 q /\ local_id packages local_name = Some 0 /\
  check_versions (normal0 nodes) packages local_name [] = [].
Proof.
  exists graph0, [pack "a" 0 0; pack "w" 4 7; pack "w" 5 3; pack "w" 6 1], (tx "a"), "w"%string, 7, 3, 4, 5. split; [right; left; reflexivity|]. split; [right; right; left; reflexivity|]. split; [discriminate|].
  assert (E : forall d, is_normal_dep 9 graph0 0 d = Some true -> d < 9 -> reached graph0 0 d). { intros d H L. destruct (normal_dep_ok graph0 0 (fun n => n) graph0_rank 9 d L) as (b & Q & B). apply B. congruence. }
  split; [apply E; [reflexivity|lia]|]. split; [apply E; [reflexivity|lia]|]. split; reflexivity.
Qed.
Print Assumptions multiple_crate_versions_third_refuted.
Theorem multiple_crate_versions_local_refuted : exists normal packages local_name me name versions, In me packages /\ underscored (pk_name me) = local_name /\
  (let group := filter (fun p => teqb (pk_name p) name) packages in 2 <= List.length group /\ (forall p, In p group -> normal (pk_id me) (pk_id p) = true) /\ Permutation (map pk_version group) versions) /\ check_versions normal packages local_name [] = [].
Proof.
  exists (fun l d => Nat.eqb l 1 && negb (Nat.eqb d 1)), [pack "a" 0 0; pack "a" 1 1; pack "w" 4 7; pack "w" 5 3], (tx "a"), (pack "a" 1 1), (tx "w"), [7; 3]. split; [right; left; reflexivity|]. split; [reflexivity|]. split; [|reflexivity].
  cbn. split; [lia|]. split; [|reflexivity]. intros p [<-|[<-|[]]]; reflexivity.
Qed.
Print Assumptions multiple_crate_versions_local_refuted.

(** ** C83 *)
(** Each suggestion keeps the value of the condition, whatever is set. *)
Theorem non_minimal_cfg_preserves set_ other cond items : In (Some items) (check_nested_cfg [cond]) -> exists cond', items = [cond'] /\ holds set_ other cond' = holds set_ other cond.
Proof.
  unfold check_nested_cfg. intros J. apply nested_in in J. destruct J as (a & x & b & q & E & J & Q). destruct a as [|y a]; [|destruct a; discriminate E]. injection E as <- <-. destruct q as [x'|]; [|discriminate Q]. injection Q as ->.
  destruct (reports_sound set_ other cond x' J) as (j & -> & H). exists j. split; [reflexivity|exact H].
Qed.
Print Assumptions non_minimal_cfg_preserves.
(** If nothing is reported, no `all` or `any` is needless.  Missing: below `not`. *)
Theorem non_minimal_cfg_complete_partial cond : check_nested_cfg [cond] = [] -> ~ needless cond.
Proof. unfold check_nested_cfg. cbn [nested]. fold nested. rewrite app_nil_r. intros E. apply reports_complete. destruct (reports cond); [reflexivity|discriminate E]. Qed.
Print Assumptions non_minimal_cfg_complete_partial.
Example non_minimal_cfg_ex : check_nested_cfg [Group Any [Atom 0; Group All [Group Any [Atom 1]]]] = [Some [Group Any [Atom 0; Group All [Atom 1]]]; Some [Group Any [Atom 0; Group Any [Atom 1]]]] /\ check_nested_cfg [Group All [Atom 0; Group Any []]] = [].
Proof. split; reflexivity. Qed.
Theorem non_minimal_cfg_not_refuted : exists cond, check_nested_cfg [Group Not [cond]] = [] /\ needless cond.
Proof. exists (Group All [Atom 0]). split; [reflexivity|]. apply One. auto. Qed.
Print Assumptions non_minimal_cfg_not_refuted.
