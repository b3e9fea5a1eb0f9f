From Verif Require Import Text DevModel DevSpec DevProofs.
From Coq Require Import Lia Permutation Sorted Relations.

(** ** Order and sorting *)
Lemma nat_of_ascii_inj c d : nat_of_ascii c = nat_of_ascii d -> c = d.
Proof. intros H. rewrite <- (ascii_nat_embedding c), <- (ascii_nat_embedding d). now rewrite H. Qed.
Lemma text_cmp_spec a : forall b, CompareSpec (a = b) (text_lt a b) (text_lt b a) (text_cmp a b).
Proof.
  induction a as [|c a IH]; intros [|d b]; cbn; try (constructor; constructor).
  destruct (Nat.compare_spec (nat_of_ascii c) (nat_of_ascii d)) as [E|E|E].
  - apply nat_of_ascii_inj in E. subst d. destruct (IH b) as [->|L|L]; constructor; [reflexivity| |]; now apply lt_tail.
  - constructor. now constructor.
  - constructor. now constructor.
Qed.
Lemma text_lt_irrefl a : ~ text_lt a a.
Proof. induction a as [|c a IH]; intros H; inversion H; subst; [lia|contradiction]. Qed.
Lemma text_lt_trans a : forall b c, text_lt a b -> text_lt b c -> text_lt a c.
Proof.
  induction a as [|x a IH]; intros b c H1 H2.
  - inversion H1; subst. inversion H2; subst; constructor.
  - inversion H1; subst; inversion H2; subst;
      first [apply lt_head; lia | apply lt_tail; eapply IH; eassumption].
Qed.
Lemma text_leb_le a b : text_leb a b = true <-> text_le a b.
Proof.
  unfold text_leb, text_le. destruct (text_cmp_spec a b) as [E|E|E]; split; intros H; try reflexivity; try discriminate; try tauto.
  exfalso. destruct H as [->|H]; [now apply text_lt_irrefl in E|]. exact (text_lt_irrefl _ (text_lt_trans _ _ _ H E)).
Qed.
Lemma text_le_total a b : text_le a b \/ text_le b a.
Proof. unfold text_le. destruct (text_cmp_spec a b); auto. Qed.
Lemma text_le_trans a b c : text_le a b -> text_le b c -> text_le a c.
Proof. intros [->|H1] [->|H2]; try (now left); right; try assumption. eapply text_lt_trans; eassumption. Qed.
Lemma text_le_antisym a b : text_le a b -> text_le b a -> a = b.
Proof. intros [E1|H1] [E2|H2]; try congruence. exfalso. exact (text_lt_irrefl _ (text_lt_trans _ _ _ H1 H2)). Qed.

Section Sort.
Context {A : Type} (key : A -> text).
Definition sorted := StronglySorted (fun x y => text_le (key x) (key y)).
Lemma insert_perm x l : Permutation (x :: l) (insert_sorted key x l).
Proof. induction l as [|y l IH]; cbn; [reflexivity|]. destruct (text_leb _ _); [reflexivity|]. rewrite perm_swap. now constructor. Qed.
Lemma sort_perm l : Permutation l (sort_by key l).
Proof. induction l as [|x l IH]; cbn; [reflexivity|]. rewrite <- insert_perm. now constructor. Qed.
Lemma insert_sorted_ok x l : sorted l -> sorted (insert_sorted key x l).
Proof.
  induction 1 as [|y l S IH F]; cbn; [repeat constructor|].
  destruct (text_leb (key x) (key y)) eqn:E.
  - apply text_leb_le in E. constructor; [now constructor|]. constructor; [assumption|].
    eapply Forall_impl; [|exact F]. intros z. cbn. now apply text_le_trans.
  - constructor; [assumption|]. rewrite <- insert_perm. constructor; [|assumption].
    destruct (text_le_total (key x) (key y)) as [H|H]; [|assumption]. apply text_leb_le in H. congruence.
Qed.
Lemma sort_sorted l : sorted (sort_by key l).
Proof. induction l as [|x l IH]; cbn; [constructor|]. now apply insert_sorted_ok. Qed.
Lemma insert_first x l : Forall (fun y => text_le (key x) (key y)) l -> insert_sorted key x l = x :: l.
Proof. destruct l as [|y l]; [reflexivity|]. intros F. inversion F; subst. cbn. apply text_leb_le in H1. now rewrite H1. Qed.
Lemma sort_id l : sorted l -> sort_by key l = l.
Proof.
  induction 1 as [|x l S IH F]; [reflexivity|].
  change (sort_by key (x :: l)) with (insert_sorted key x (sort_by key l)). rewrite IH. now apply insert_first.
Qed.
End Sort.

(** ** The symbol list *)
Lemma hd_not_app f a b : hd_not f a -> (a = [] -> hd_not f b) -> hd_not f (a ++ b).
Proof. destruct a; cbn; auto. Qed.
Lemma trim_start_trim_end s : hd_not is_ws s -> hd_not is_ws (trim_end s).
Proof.
  destruct (trim_end_decomp s) as (w & E & _ & _). destruct (trim_end s) as [|c r]; [intros; exact I|].
  rewrite E. intros H; exact H.
Qed.
Lemma trim_hd s : hd_not is_ws (trim s) /\ hd_not is_ws (rev (trim s)).
Proof.
  unfold trim. split.
  - apply trim_start_trim_end. apply drop_while_hd.
  - destruct (trim_end_decomp (trim_start s)) as (w & _ & _ & H). exact H.
Qed.
Lemma sym_entry_ok l : ~ In newline l ->
  let x := sym_entry l in hd_not is_ws x /\ hd_not is_ws (rev x) /\ ~ In newline x.
Proof.
  intros N. cbn zeta. unfold sym_entry. destruct (trim_hd l) as [H1 H2].
  set (y := match strip_suf (tx ",") (trim l) with Some l' => l' | None => trim l end).
  assert (Y : (exists z, trim l = y ++ z)).
  { unfold y. destruct (strip_suf (tx ",") (trim l)) eqn:E; [apply strip_suf_some in E; eauto|exists []; now rewrite app_nil_r]. }
  destruct Y as [z Y].
  assert (HY : hd_not is_ws y) by (rewrite Y in H1; destruct y; [exact I|exact H1]).
  destruct (trim_end_decomp y) as (w & E & _ & HE).
  split; [now apply trim_start_trim_end|]. split; [assumption|].
  intros HI. apply N. destruct (trim_decomp l) as (b1 & b2 & El & _). rewrite El, Y, E.
  rewrite !in_app_iff. auto.
Qed.
Definition sym_line (x : text) : text := tx "    " ++ x ++ tx ",".
Lemma sym_entry_line x : hd_not is_ws x -> hd_not is_ws (rev x) -> sym_entry (sym_line x) = x.
Proof.
  intros H1 H2. unfold sym_entry, sym_line.
  assert (T : trim (tx "    " ++ x ++ tx ",") = x ++ tx ",").
  { unfold trim. rewrite trim_start_app by (repeat constructor).
    rewrite trim_start_id by (apply hd_not_app; [assumption|reflexivity]).
    apply trim_end_id. rewrite rev_app_distr. reflexivity. }
  rewrite T. rewrite (proj2 (strip_suf_some (tx ",") (x ++ tx ",") x) eq_refl). now apply trim_end_id.
Qed.
Lemma join_syms ls : ls <> [] ->
  tx "    " ++ join (tx "," ++ [newline] ++ tx "    ") ls ++ tx "," = join [newline] (map sym_line ls).
Proof.
  induction ls as [|x ls IH]; [congruence|]. intros _. destruct ls as [|y ls]; [reflexivity|].
  change (map sym_line (x :: y :: ls)) with (sym_line x :: map sym_line (y :: ls)).
  change (join [newline] (sym_line x :: map sym_line (y :: ls))) with (sym_line x ++ [newline] ++ join [newline] (map sym_line (y :: ls))).
  rewrite <- IH by discriminate.
  change (join (tx "," ++ [newline] ++ tx "    ") (x :: y :: ls))
    with (x ++ (tx "," ++ [newline] ++ tx "    ") ++ join (tx "," ++ [newline] ++ tx "    ") (y :: ls)).
  unfold sym_line. now rewrite <- !app_assoc.
Qed.
Lemma lines_tail_cons x z l : lines_tail (x :: z :: l) = drop_last_cr x :: lines_tail (z :: l).
Proof. destruct x; reflexivity. Qed.
Lemma lines_tail_id l : Forall (fun x => exists y, x = y ++ tx ",") l -> lines_tail l = l.
Proof.
  induction 1 as [|x l [y ->] F IH]; [reflexivity|]. destruct l as [|z l].
  - destruct y; reflexivity.
  - rewrite lines_tail_cons. assert (E : drop_last_cr (y ++ tx ",") = y ++ tx ",").
    { unfold drop_last_cr. rewrite rev_app_distr. reflexivity. }
    f_equal; [exact E|exact IH].
Qed.
Lemma tlines_syms ls : ls <> [] -> Forall (fun x => ~ In newline x) ls ->
  tlines (join [newline] (map sym_line ls)) = map sym_line ls.
Proof.
  intros NE F. unfold tlines. rewrite split_join.
  - apply lines_tail_id. apply Forall_map. apply Forall_forall. intros x _. unfold sym_line.
    exists (tx "    " ++ x). now rewrite app_assoc.
  - destruct ls; [congruence|discriminate].
  - apply Forall_map. eapply Forall_impl; [|exact F]. intros x N HI. unfold sym_line in HI.
    rewrite !in_app_iff in HI. destruct HI as [HI|[HI|HI]]; [cbn in HI; intuition discriminate|contradiction|cbn in HI; intuition discriminate].
Qed.
(** Every newline of the formatted list is followed by a blank. *)
Lemma syms_newlines ls a b : Forall (fun x => ~ In newline x) ls ->
  join [newline] (map sym_line ls) = a ++ newline :: b -> exists b', b = " "%char :: b'.
Proof.
  revert a. induction ls as [|x ls IH]; intros a F H; [destruct a; discriminate|].
  inversion F as [|? ? Fx Fl]; subst.
  assert (NX : ~ In newline (sym_line x)).
  { unfold sym_line. rewrite !in_app_iff. intros [HI|[HI|HI]]; [cbn in HI; intuition discriminate|contradiction|cbn in HI; intuition discriminate]. }
  destruct ls as [|y ls].
  - cbn [map join] in H. destruct NX. rewrite H. apply in_or_app. right; now left.
  - change (join [newline] (map sym_line (x :: y :: ls))) with (sym_line x ++ newline :: join [newline] (map sym_line (y :: ls))) in H.
    assert (C := cut_app newline (sym_line x) (join [newline] (map sym_line (y :: ls))) NX).
    destruct (in_dec ascii_dec newline a) as [I|I].
    + (* later newline *)
      apply in_split in I. destruct I as (a1 & a2 & ->).
      assert (FI : exists a1' a2', a1 ++ newline :: a2 = a1' ++ newline :: a2' /\ ~ In newline a1').
      { clear. revert a2. induction a1 as [|c a1 IH] using rev_ind; intros a2; [exists [], a2; split; [reflexivity|now intros []]|].
        destruct (in_dec ascii_dec newline (a1 ++ [c])) as [I|I]; [|exists (a1 ++ [c]), a2; split; [reflexivity|assumption]].
        apply in_split in I. destruct I as (u & v & E).
        destruct (cut newline (a1 ++ [c])) as [[p q]|] eqn:C.
        - apply cut_some in C. destruct C as [C N]. exists p, (q ++ newline :: a2). rewrite C, <- app_assoc. split; [reflexivity|assumption].
        - apply cut_none in C. destruct C. rewrite E. apply in_or_app. right; now left. }
      destruct FI as (p & q & E & NP). rewrite E in H. rewrite <- app_assoc in H. cbn [app] in H.
      rewrite H, cut_app in C by assumption. injection C as _ E2. apply (IH q Fl). symmetry. exact E2.
    + rewrite H, cut_app in C by assumption. injection C as _ E2. rewrite E2. destruct ls; eexists; reflexivity.
Qed.
Lemma fmt_syms_again src dst ch : fmt_syms src = Some (dst, ch) -> fmt_syms dst = Some (dst, false).
Proof.
  unfold fmt_syms. destruct (cut_str syms_start src) as [[pre r]|] eqn:E; [|discriminate].
  destruct (cut_str syms_end r) as [[conf post]|] eqn:F; [|discriminate]. intros H.
  assert (HD := f_equal (fun o => match o with Some (d, _) => d | None => nil end) H). cbv beta iota zeta in HD. subst dst. clear H ch.
  apply cut_str_some in E. apply cut_str_some in F.
  set (ls := sort_by (fun x => x) (map sym_entry (tlines conf))).
  assert (ENT : Forall (fun x => hd_not is_ws x /\ hd_not is_ws (rev x) /\ ~ In newline x) ls).
  { unfold ls. rewrite <- sort_perm. apply Forall_map, Forall_forall. intros l Hl. apply sym_entry_ok.
    assert (S := split_at_lacks newline conf). unfold tlines in Hl. revert Hl S. generalize (split_at newline conf). clear.
    induction l0 as [|x l0 IH]; [intros []|]. intros HI S. inversion S as [|? ? Sx Sl]; subst.
    destruct l0 as [|y l0].
    - destruct x; cbn in HI; [contradiction|]. destruct HI as [<-|[]]. assumption.
    - rewrite lines_tail_cons in HI.
      assert (Z : l = drop_last_cr x \/ In l (lines_tail (y :: l0))) by (destruct HI; auto).
      destruct Z as [->|Z]; [|now apply IH]. unfold drop_last_cr. destruct (rev x) as [|c q] eqn:R; [assumption|].
      destruct (Ascii.eqb _ _); [|assumption]. intros HI'. apply Sx. apply in_rev in HI'. apply in_rev. rewrite R. now right. }
  (* the list actually written: the empty list is written like one empty entry *)
  set (ls' := match ls with [] => [[]] | _ => ls end).
  assert (ENT' : Forall (fun x => hd_not is_ws x /\ hd_not is_ws (rev x) /\ ~ In newline x) ls').
  { unfold ls'. destruct ls; [|assumption]. repeat constructor. now intros []. }
  assert (NE : ls' <> []) by (unfold ls'; destruct ls; discriminate).
  assert (SRT : sorted (fun x : text => x) ls').
  { unfold ls'. assert (S := sort_sorted (fun x : text => x) (map sym_entry (tlines conf))). fold ls in S.
    destruct ls; [repeat constructor|assumption]. }
  assert (NL : Forall (fun x => ~ In newline x) ls') by (eapply Forall_impl; [|exact ENT']; cbn; tauto).
  set (body := join [newline] (map sym_line ls')).
  assert (BODY : tx "    " ++ join (tx "," ++ [newline] ++ tx "    ") ls ++ tx "," = body).
  { unfold body. rewrite <- join_syms by assumption. unfold ls'. destruct ls; reflexivity. }
  assert (DST : pre ++ syms_start ++ tx "    " ++ join (tx "," ++ [newline] ++ tx "    ") ls ++ tx "," ++ syms_end ++ post
    = pre ++ syms_start ++ body ++ syms_end ++ post).
  { rewrite <- BODY. now rewrite <- !app_assoc. }
  rewrite DST.
  assert (S1 : cut_str syms_start (pre ++ syms_start ++ body ++ syms_end ++ post) = Some (pre, body ++ syms_end ++ post)).
  { apply cut_str_some. destruct E as [Es M]. subst src. eapply first_at_swap. split; [reflexivity|exact M]. }
  rewrite S1.
  assert (S2 : cut_str syms_end (body ++ syms_end ++ post) = Some (body, post)).
  { apply cut_str_some. split; [reflexivity|]. intros a b H.
    destruct (Nat.le_gt_cases (List.length body) (List.length a)) as [|G]; [assumption|exfalso].
    assert (X : body = a ++ skipn (List.length a) body).
    { assert (Y : a = firstn (List.length a) (body ++ syms_end ++ post)) by (rewrite H; symmetry; now apply firstn_len).
      rewrite firstn_app in Y. replace (List.length a - List.length body) with 0 in Y by lia. rewrite firstn_O, app_nil_r in Y.
      rewrite Y at 1. symmetry. apply firstn_skipn. }
    destruct (skipn (List.length a) body) as [|c r'] eqn:SK.
    { apply (f_equal (@List.length _)) in SK. rewrite skipn_length in SK. cbn in SK. lia. }
    rewrite X in H. rewrite <- app_assoc in H. apply app_inv_head in H. cbn in H. injection H as -> H.
    destruct (syms_newlines ls' a r' NL X) as [r'' ->]. cbn in H. discriminate H. }
  rewrite S2. cbv beta iota zeta. replace (tlines body) with (map sym_line ls') by (symmetry; now apply tlines_syms).
  rewrite map_map.
  assert (ID : map (fun x => sym_entry (sym_line x)) ls' = ls').
  { transitivity (map (fun x => x) ls'); [|apply map_id]. apply map_ext_in. intros x Hx. rewrite Forall_forall in ENT'.
    destruct (ENT' x Hx) as (A & B & _). now apply sym_entry_line. }
  rewrite ID, sort_id by assumption.
  rewrite <- DST.
  assert (D2 : pre ++ syms_start ++ tx "    " ++ join (tx "," ++ [newline] ++ tx "    ") ls' ++ tx "," ++ syms_end ++ post
    = pre ++ syms_start ++ tx "    " ++ join (tx "," ++ [newline] ++ tx "    ") ls ++ tx "," ++ syms_end ++ post).
  { rewrite DST. unfold body. rewrite <- join_syms by assumption. now rewrite <- !app_assoc. }
  rewrite D2, teqb_refl. reflexivity.
Qed.

(** ** Offsets and lines *)
Lemma offset_loop_ok ls : forall line pos offset, Forall (fun l => ~ In newline l) ls -> ls <> [] -> pos <= offset ->
  offset <= pos + List.length (join [newline] ls) ->
  offset_loop line pos offset ls = line + count_occ ascii_dec (firstn (offset - pos) (join [newline] ls)) newline.
Proof.
  induction ls as [|l ls IH]; intros line pos offset F NE L1 L2; [congruence|]. cbn [offset_loop].
  inversion F as [|? ? Fl Fr]; subst.
  assert (Z : forall n, count_occ ascii_dec (firstn n l) newline = 0).
  { intros n. apply count_occ_not_In. intros H. apply Fl. rewrite <- (firstn_skipn n l). apply in_or_app. now left. }
  destruct (Nat.ltb_spec offset (pos + List.length l + 1)) as [G|G].
  - destruct ls as [|y ls].
    + cbn [join]. rewrite Z. lia.
    + change (join [newline] (l :: y :: ls)) with (l ++ newline :: join [newline] (y :: ls)).
      rewrite firstn_app. replace (offset - pos - List.length l) with 0 by lia. rewrite firstn_O, app_nil_r, Z. lia.
  - destruct ls as [|y ls].
    + cbn [join] in L2. lia.
    + change (join [newline] (l :: y :: ls)) with (l ++ newline :: join [newline] (y :: ls)) in *.
      rewrite app_length in L2. cbn [List.length] in L2.
      rewrite IH; [|assumption|discriminate|lia|lia].
      rewrite firstn_app, (firstn_all2 l) by lia. rewrite count_occ_app.
      rewrite <- (firstn_all l) at 2. rewrite Z.
      replace (offset - pos - List.length l) with (S (offset - (pos + List.length l + 1))) by lia.
      cbn [firstn]. rewrite count_occ_cons_eq by reflexivity. lia.
Qed.
Lemma offset_to_line_ok t offset : offset <= List.length t ->
  offset_to_line t offset = 1 + count_occ ascii_dec (firstn offset t) newline.
Proof.
  intros L. unfold offset_to_line. rewrite offset_loop_ok.
  - rewrite join_split. now rewrite Nat.sub_0_r.
  - apply split_at_lacks.
  - apply split_at_nonempty.
  - lia.
  - rewrite join_split. lia.
Qed.

(** ** Module lines *)
Lemma mod_lines_in sep paths : forall prev m, In m (mod_lines sep prev paths) -> exists p, In p paths /\ top_module sep p = m.
Proof.
  induction paths as [|p paths IH]; intros prev m H; [contradiction|]. cbn in H.
  destruct (teqb _ _) eqn:T.
  - destruct (IH _ _ H) as (q & Q & E). exists q. split; [now right|assumption].
  - destruct H as [<-|H]; [exists p; split; [now left|reflexivity]|].
    destruct (IH _ _ H) as (q & Q & E). exists q. split; [now right|assumption].
Qed.
Lemma mod_lines_all sep paths : forall prev p, In p paths -> top_module sep p = prev \/ In (top_module sep p) (mod_lines sep prev paths).
Proof.
  induction paths as [|q paths IH]; intros prev p H; [contradiction|]. cbn.
  destruct (teqb (top_module sep q) prev) eqn:T.
  - apply teqb_eq in T. destruct H as [->|H]; [now left|]. now apply IH.
  - destruct H as [->|H]; [right; now left|]. right. destruct (IH (top_module sep q) p H) as [E|E]; [left; now rewrite E|now right].
Qed.
(** Characters of a path: the separator or a larger byte. *)
Definition path_ok (sep : ascii) (p : text) : Prop := Forall (fun c => nat_of_ascii sep <= nat_of_ascii c) p.
Lemma top_prefix sep p : p = top_module sep p \/ exists r, p = top_module sep p ++ sep :: r.
Proof.
  unfold top_module. destruct (cut sep p) as [[x r]|] eqn:E; [|now left]. apply cut_some in E. destruct E as [-> _]. right. eauto.
Qed.
Lemma top_lacks sep p : ~ In sep (top_module sep p).
Proof. unfold top_module. destruct (cut sep p) as [[x r]|] eqn:E; [now apply cut_some in E|now apply cut_none]. Qed.
Lemma top_of sep m : ~ In sep m -> top_module sep m = m /\ forall r, top_module sep (m ++ sep :: r) = m.
Proof.
  intros N. unfold top_module. split.
  - now rewrite (proj2 (cut_none sep m) N).
  - intros r. now rewrite cut_app.
Qed.
Lemma between_prefix m q r : text_le m q -> text_le q (m ++ r) -> exists y, q = m ++ y /\ text_le y r.
Proof.
  revert q. induction m as [|c m IH]; intros q H1 H2; [exists q; now split|].
  destruct q as [|d q]; [destruct H1 as [H1|H1]; [discriminate|inversion H1]|].
  assert (c = d) as <-.
  { apply nat_of_ascii_inj. destruct H1 as [H1|H1], H2 as [H2|H2]; inversion H1; inversion H2; subst; try reflexivity; lia. }
  assert (T : forall a b, text_le (c :: a) (c :: b) -> text_le a b).
  { intros a b [X|X]; [injection X as ->; now left|]. inversion X; subst; [lia|now right]. }
  destruct (IH q) as (y & -> & Y); [now apply T|now apply T|]. now exists y.
Qed.
Lemma prefix_le m r : text_le m (m ++ r).
Proof. induction m as [|c m IH]; [destruct r; [now left|right; constructor]|]. destruct IH as [E|L]; [left; cbn; now rewrite <- E|right; cbn; now constructor]. Qed.
Lemma tops_contiguous sep p q r : path_ok sep q -> text_le p q -> text_le q r ->
  top_module sep p = top_module sep r -> top_module sep q = top_module sep r.
Proof.
  intros Q L1 L2 E. set (m := top_module sep r) in *.
  assert (N : ~ In sep m) by apply top_lacks.
  assert (M1 : text_le m q).
  { eapply text_le_trans; [|exact L1]. destruct (top_prefix sep p) as [X|[x X]]; rewrite E in X; rewrite X; [now left|apply prefix_le]. }
  assert (M2 : exists x, text_le q (m ++ x) /\ (x = [] \/ exists z, x = sep :: z)).
  { destruct (top_prefix sep r) as [X|[x X]]; fold m in X.
    - exists []. rewrite app_nil_r, <- X. split; [assumption|now left].
    - exists (sep :: x). rewrite <- X. split; [assumption|right; now exists x]. }
  destruct M2 as (x & M2 & HX). destruct (between_prefix m q x M1 M2) as (y & -> & Y).
  destruct y as [|c y]; [rewrite app_nil_r; now apply top_of|].
  destruct HX as [->|[z ->]].
  - destruct Y as [Y|Y]; [discriminate|inversion Y].
  - assert (c = sep) as ->; [|now apply top_of].
    unfold path_ok in Q. rewrite Forall_app in Q. destruct Q as [_ Q]. inversion Q; subst.
    apply nat_of_ascii_inj. destruct Y as [Y|Y]; [now injection Y as ->|]. inversion Y; subst; lia.
Qed.
Lemma mod_lines_nodup sep paths : sorted (fun x : text => x) paths -> Forall (path_ok sep) paths ->
  forall p0, Forall (text_le p0) paths -> ~ In (top_module sep p0) (mod_lines sep (top_module sep p0) paths) /\
    NoDup (mod_lines sep (top_module sep p0) paths).
Proof.
  induction 1 as [|p paths S IH F]; intros OK p0 L; [split; [now intros []|constructor]|].
  inversion OK as [|? ? OKp OKr]; subst. inversion L as [|? ? Lp Lr]; subst. cbn [mod_lines].
  destruct (teqb (top_module sep p) (top_module sep p0)) eqn:T.
  - now apply IH.
  - assert (NE : top_module sep p <> top_module sep p0) by (intros X; apply teqb_eq in X; congruence).
    destruct (IH OKr p F) as [N D]. split.
    + intros [X|X]; [congruence|]. apply mod_lines_in in X. destruct X as (q & Q & E).
      apply NE. rewrite <- E. apply (tops_contiguous sep p0 p q); [assumption|assumption| |symmetry; exact E].
      rewrite Forall_forall in F. now apply F.
    + now constructor.
Qed.
Lemma gen_mods_ok sep paths : Forall (path_ok sep) paths ->
  NoDup (gen_mods sep paths) /\
  forall m, In m (gen_mods sep paths) <-> m <> [] /\ exists p, In p paths /\ top_module sep p = m.
Proof.
  intros OK. unfold gen_mods. assert (P := sort_perm (fun x : text => x) paths).
  assert (OK' : Forall (path_ok sep) (sort_by (fun x => x) paths)) by (now rewrite <- P).
  assert (L : Forall (text_le []) (sort_by (fun x => x) paths)).
  { apply Forall_forall. intros x _. destruct x; [now left|right; constructor]. }
  destruct (mod_lines_nodup sep _ (sort_sorted _ paths) OK' [] L) as [N D].
  change (top_module sep []) with (@nil ascii) in *. split; [exact D|].
  intros m. split.
  - intros H. split; [intros ->; contradiction|]. apply mod_lines_in in H. destruct H as (p & Hp & E). exists p. split; [|assumption].
    eapply Permutation_in; [symmetry; exact P|assumption].
  - intros (NE & p & Hp & <-). destruct (mod_lines_all sep (sort_by (fun x => x) paths) [] p) as [X|X]; [now apply (Permutation_in _ P)|congruence|assumption].
Qed.

(** ** Reachability *)
Lemma succ_edge r u v : In v (successors r u) <-> In (u, v) r.
Proof.
  unfold successors. rewrite in_map_iff. split.
  - intros ([a b] & E & H). apply filter_In in H. destruct H as [H T]. cbn in *. apply Nat.eqb_eq in T. now subst.
  - intros H. exists (u, v). split; [reflexivity|]. apply filter_In. split; [assumption|]. apply Nat.eqb_refl.
Qed.
Lemma mem_true v l : existsb (Nat.eqb v) l = true <-> In v l.
Proof. rewrite existsb_exists. split; [intros (x & H & E); apply Nat.eqb_eq in E; now subst|intros H; exists v; split; [assumption|apply Nat.eqb_refl]]. Qed.
Lemma visit_all vs : forall seen stack seen' stack', fold_left visit vs (seen, stack) = (seen', stack') ->
  exists new, seen' = new ++ seen /\ stack' = new ++ stack /\ incl new vs /\
    (forall v, In v vs -> In v seen') /\ (NoDup seen -> NoDup seen').
Proof.
  induction vs as [|v vs IH]; intros seen stack seen' stack' H; cbn in H.
  - injection H as <- <-. exists []. split; [reflexivity|]. split; [reflexivity|]. split; [intros ? []|]. split; [intros ? []|auto].
  - destruct (existsb (Nat.eqb v) seen) eqn:E.
    + destruct (IH _ _ _ _ H) as (new & -> & -> & I & A & D). exists new. split; [reflexivity|]. split; [reflexivity|].
      split; [intros x Hx; right; now apply I|]. split; [|assumption].
      intros x [<-|Hx]; [apply in_or_app; right; now apply mem_true|now apply A].
    + destruct (IH _ _ _ _ H) as (new & -> & -> & I & A & D). exists (new ++ [v]). rewrite <- !app_assoc.
      split; [reflexivity|]. split; [reflexivity|]. split; [|split].
      * intros x Hx. apply in_app_or in Hx. destruct Hx as [Hx|[<-|[]]]; [right; now apply I|now left].
      * intros x [<-|Hx]; [apply in_or_app; right; now left|now apply A].
      * intros ND. apply D. constructor; [|assumption]. intros X. apply mem_true in X. congruence.
Qed.
Definition targets (r : edge_list) : list nat := map snd r.
Lemma seen_bound r seen : NoDup seen -> incl seen (targets r) -> List.length seen <= List.length r.
Proof. intros D I. rewrite <- (map_length snd r). now apply NoDup_incl_length. Qed.
Lemma reach_loop_ok r a : forall fuel seen stack,
  NoDup seen -> incl seen (targets r) ->
  List.length r + List.length stack <= fuel + List.length seen ->
  (forall v, In v seen -> connected r a v) ->
  (forall v, In v stack -> v = a \/ connected r a v) ->
  (forall u v, u = a \/ In u seen -> In u stack \/ (In (u, v) r -> In v seen)) ->
  exists res, reach_loop fuel r seen stack = Some res /\ forall v, In v res <-> connected r a v.
Proof.
  induction fuel as [|fuel IH]; intros seen stack D I M S1 S2 C.
  - assert (B := seen_bound r seen D I). destruct stack as [|u stack]; [|cbn in M; lia]. cbn. exists seen. split; [reflexivity|].
    intros v. split; [apply S1|]. intros H. apply clos_trans_tn1_iff in H. induction H as [v H|v w H H' IHc].
    + destruct (C a v (or_introl eq_refl)) as [[]|X]. now apply X.
    + destruct (C v w (or_intror IHc)) as [[]|X]. now apply X.
  - destruct stack as [|u stack]; cbn [reach_loop].
    + exists seen. split; [reflexivity|].
      intros v. split; [apply S1|]. intros H. apply clos_trans_tn1_iff in H. induction H as [v H|v w H H' IHc].
      * destruct (C a v (or_introl eq_refl)) as [[]|X]. now apply X.
      * destruct (C v w (or_intror IHc)) as [[]|X]. now apply X.
    + destruct (fold_left visit (successors r u) (seen, stack)) as [seen' stack'] eqn:E.
      destruct (visit_all _ _ _ _ _ E) as (new & -> & -> & In1 & All & ND).
      assert (NEW : forall v, In v new -> connected r a v).
      { intros v Hv. apply In1, succ_edge in Hv. destruct (S2 u (or_introl eq_refl)) as [->|X].
        - now apply t_step.
        - eapply t_trans; [exact X|now apply t_step]. }
      apply IH.
      * now apply ND.
      * intros v Hv. apply in_app_or in Hv. destruct Hv as [Hv|Hv]; [|now apply I]. apply In1, succ_edge in Hv.
        apply in_map_iff. exists (u, v). now split.
      * rewrite !app_length. cbn [List.length] in M. lia.
      * intros v Hv. apply in_app_or in Hv. destruct Hv; auto.
      * intros v Hv. apply in_app_or in Hv. destruct Hv as [Hv|Hv]; [right; now apply NEW|]. apply S2. now right.
      * intros x v Hx.
        assert (Y : (x = a \/ In x seen) \/ In x new).
        { destruct Hx as [Hx|Hx]; [tauto|]. apply in_app_or in Hx. tauto. }
        destruct Y as [Y|Y]; [|left; apply in_or_app; now left].
        destruct (C x v Y) as [[<-|X]|X].
        -- right. intros H. apply All. now apply succ_edge.
        -- left. apply in_or_app. now right.
        -- right. intros H. apply in_or_app. right. now apply X.
Qed.
Lemma reachable_ok r a : exists res, reachable_from r a = Some res /\ forall v, In v res <-> connected r a v.
Proof.
  apply reach_loop_ok.
  - constructor.
  - intros ? [].
  - cbn. lia.
  - intros ? [].
  - intros v [<-|[]]. now left.
  - intros u v [->|[]]. left. now left.
Qed.

(** ** Removing a declaration, and the name of the lint pass *)
Lemma remove_declaration_ok pre post : exists a b, remove_declaration pre post = a ++ b /\
  (pre = a \/ pre = a ++ [newline] /\ exists x, a = x ++ [newline]) /\
  (post = b \/ post = newline :: b /\ exists x, b = newline :: x).
Proof.
  unfold remove_declaration.
  exists (if ends (tx "" ++ [newline; newline]) pre then removelast pre else pre), (if starts [newline; newline] post then tl post else post).
  split; [reflexivity|]. split.
  - destruct (ends _ pre) eqn:E; [right|now left]. apply ends_iff in E. destruct E as [x ->]. cbn [tx list_ascii_of_string app].
    change [newline; newline] with ([newline] ++ [newline]). rewrite app_assoc, removelast_last. split; [reflexivity|]. now exists x.
  - destruct (starts _ post) eqn:E; [right|now left]. apply starts_iff in E. destruct E as [x ->]. cbn [app tl]. split; [reflexivity|]. now exists x.
Qed.
