From Coq Require Import Lia.
From Verif Require Export ReindentSpec.

Lemma blanks_dec l : {blanks l} + {~ blanks l}.
Proof. unfold blanks. apply Forall_dec. intros c. destruct (ascii_dec c " "); [left; auto|]. destruct (ascii_dec c tab); [left; auto|right]. intros []; auto. Qed.
Lemma blanks_app a b : blanks (a ++ b) <-> blanks a /\ blanks b.
Proof. apply Forall_app. Qed.
Lemma blanks_repeat c n : c = " "%char \/ c = tab -> blanks (repeat c n).
Proof. intros H. induction n; constructor; auto. Qed.

(** ** One pass, on the list of lines *)
Definition rewritten (x n : nat) (l : text) : text :=
  if is_empty l then l else if n <? x then skipn (x - n) l else repeat " "%char (n - x) ++ l.

Lemma lines_loop_nth g x n : forall L i, (forall j l, nth_error L j = Some l -> ignored g (i + j) = false -> l <> [] -> x <= List.length l) ->
  exists M, lines_loop g x n i L = Some M /\ List.length M = List.length L /\ forall j l, nth_error L j = Some l -> nth_error M j = Some (if ignored g (i + j) then l else rewritten x n l).
Proof.
  induction L as [|l L IH]; intros i H.
  - exists []. repeat split. intros [|j] l E; discriminate.
  - destruct (IH (S i)) as (M & E & LE & N). { intros j l' Ej. replace (S i + j) with (i + S j) by lia. now apply (H (S j)). }
    exists ((if ignored g i then l else rewritten x n l) :: M). cbn [lines_loop]. rewrite E. fold (ignored g i). split; [|split; [cbn; now rewrite LE|]].
    + match goal with |- match ?o with _ => _ end = _ => assert (Z : o = Some (if ignored g i then l else rewritten x n l)); [|now rewrite Z] end.
      pose proof (H 0 l eq_refl) as H0. rewrite Nat.add_0_r in H0. destruct (ignored g i); cbn [orb]; [reflexivity|]. unfold rewritten. destruct l as [|c l]; [reflexivity|]. cbn [is_empty]. destruct (n <? x); [|reflexivity].
      unfold split_off. replace (x - n <=? List.length (c :: l)) with true; [reflexivity|]. symmetry. apply Nat.leb_le. specialize (H0 eq_refl ltac:(discriminate)). lia.
    + intros [|j] l' Ej; cbn [nth_error] in *.
      * injection Ej as <-. rewrite Nat.add_0_r. reflexivity.
      * rewrite (N j l' Ej). replace (S i + j) with (i + S j) by lia. reflexivity.
Qed.

Lemma fold_min_spec : forall r a, let m := fold_left Nat.min r a in (In m (a :: r)) /\ forall y, In y (a :: r) -> m <= y.
Proof.
  induction r as [|b r IH]; intros a m; unfold m; clear m.
  - cbn. split; [auto|]. intros y [->|[]]. auto.
  - cbn [fold_left]. destruct (IH (Nat.min a b)) as [H1 H2]. split.
    + destruct H1 as [H1|H1]; [|right; now right]. rewrite <- H1. destruct (Nat.min_spec a b) as [[_ ->]|[_ ->]]; [now left|right; now left].
    + intros y [<-|[<-|Y]]; [specialize (H2 _ (or_introl eq_refl)); lia|specialize (H2 _ (or_introl eq_refl)); lia|]. apply H2. now right.
Qed.
Definition minlead (g : bool) (ch : ascii) (L : list text) : nat :=
  min_or_0 (map (leading ch) (filter (fun l => negb (is_empty l)) (skipn (if g then 1 else 0) L))).
Lemma active_in g L l : active g L l <-> In l (filter (fun l => negb (is_empty l)) (skipn (if g then 1 else 0) L)).
Proof.
  rewrite filter_In. unfold active, ignored. split.
  - intros (i & E & I & N). split; [|destruct l; [congruence|reflexivity]]. destruct g; cbn [andb] in I.
    + destruct i as [|i]; [discriminate|]. destruct L as [|x L]; [discriminate|]. cbn in *. apply nth_error_In in E. exact E.
    + apply nth_error_In in E. exact E.
  - intros [H E]. apply In_nth_error in H as [i H]. assert (N : l <> []) by (destruct l; [discriminate|congruence]). destruct g.
    + exists (S i). split; [|auto]. destruct L; [destruct i; discriminate|exact H].
    + exists i. auto.
Qed.
Lemma minlead_spec g ch L : (forall l, active g L l -> minlead g ch L <= leading ch l) /\ ((exists l, active g L l) -> exists l, active g L l /\ leading ch l = minlead g ch L).
Proof.
  unfold minlead. pose proof (active_in g L) as AI. destruct (filter (fun l => negb (is_empty l)) (skipn (if g then 1 else 0) L)) as [|a r].
  - split; [intros l A; now apply AI in A|]. intros (l & A). now apply AI in A.
  - cbn [map min_or_0]. destruct (fold_min_spec (map (leading ch) r) (leading ch a)) as [H1 H2]. change (leading ch a :: map (leading ch) r) with (map (leading ch) (a :: r)) in *. split.
    + intros l A. apply AI in A. apply H2. now apply in_map.
    + intros _. apply in_map_iff in H1 as (l & E & I). exists l. rewrite E. split; [now apply AI|reflexivity].
Qed.
Lemma leading_split ch l n : n <= leading ch l -> exists t, l = repeat ch n ++ t.
Proof.
  unfold leading. revert n. induction l as [|c l IH]; intros n H; cbn in H.
  - assert (n = 0) as -> by lia. exists []. reflexivity.
  - destruct n as [|n]; [exists (c :: l); reflexivity|]. destruct (Ascii.eqb_spec ch c) as [->|]; cbn in H; [|lia]. destruct (IH n ltac:(lia)) as (t & ->). exists t. reflexivity.
Qed.
Lemma leading_repeat ch n t : leading ch (repeat ch n ++ t) = n + leading ch t.
Proof. unfold leading. induction n as [|n IH]; [reflexivity|]. cbn. rewrite Ascii.eqb_refl. cbn. now rewrite IH. Qed.
Lemma leading_le ch l : leading ch l <= List.length l.
Proof. unfold leading. induction l as [|c l IH]; [auto|]. cbn. destruct (Ascii.eqb ch c); cbn; lia. Qed.

Lemma pass_spec g n ch s : exists M, let L := tlines s in let x := minlead g ch L in
  reindent_multiline_inner s g n ch = Some (join [newline] M) /\ List.length M = List.length L /\
  (forall j l, nth_error L j = Some l -> nth_error M j = Some (if ignored g j then l else rewritten x (match n with Some k => k | None => 0 end) l)).
Proof.
  cbv zeta. set (k := match n with Some k => k | None => 0 end). destruct (lines_loop_nth g (minlead g ch (tlines s)) k (tlines s) 0) as (M & E & LE & N).
  - intros j l Ej I NE. destruct (minlead_spec g ch (tlines s)) as [H _]. specialize (H l (ex_intro _ j (conj Ej (conj I NE)))). pose proof (leading_le ch l). cbn in *. lia.
  - exists M. split; [|split; [exact LE|exact N]]. unfold reindent_multiline_inner. fold k. change (min_or_0 _) with (minlead g ch (tlines s)). now rewrite E.
Qed.
(** What a pass does to the lines. *)
Lemma rewritten_kept g ch n L : ch = " "%char \/ ch = tab -> let x := minlead g ch L in exists w p, blanks w /\ blanks p /\ (forall c, In c p -> c = " "%char) /\
  forall l, active g L l -> exists t, l = w ++ t /\ rewritten x n l = p ++ t.
Proof.
  intros C x. destruct (minlead_spec g ch L) as [H _]. fold x in H. unfold rewritten. destruct (Nat.ltb_spec n x) as [LT|GE].
  - exists (repeat ch (x - n)), []. split; [now apply blanks_repeat|]. split; [constructor|]. split; [intros c []|]. intros l A. specialize (H l A). destruct (leading_split ch l (x - n) ltac:(lia)) as (t & E). exists t. split; [auto|].
    destruct A as (_ & _ & _ & NE). destruct l as [|c l]; [congruence|]. cbn [is_empty]. rewrite E. rewrite skipn_app, repeat_length, Nat.sub_diag. rewrite skipn_all2; [reflexivity|]. now rewrite repeat_length.
  - exists [], (repeat " "%char (n - x)). split; [constructor|]. split; [apply blanks_repeat; auto|]. split; [intros c I; now apply repeat_spec in I|]. intros l A. exists l. split; [reflexivity|]. destruct A as (_ & _ & _ & NE). destruct l; [congruence|reflexivity].
Qed.

(** ** The relation between texts *)
Definition kept (g : bool) (w p : text) (L M : list text) : Prop := blanks w /\ blanks p /\ List.length M <= List.length L /\ lines_kept g w p L M.
Lemma kept_pass g n ch s : ch = " "%char \/ ch = tab -> exists w p M, reindent_multiline_inner s g n ch = Some (join [newline] M) /\ kept g w p (tlines s) M /\ List.length M = List.length (tlines s) /\
  (forall j l, nth_error (tlines s) j = Some l -> nth_error M j = Some (if ignored g j then l else rewritten (minlead g ch (tlines s)) (match n with Some k => k | None => 0 end) l)).
Proof.
  intros C. destruct (pass_spec g n ch s) as (M & E & LE & N). set (k := match n with Some k => k | None => 0 end) in *. destruct (rewritten_kept g ch k (tlines s) C) as (w & p & BW & BP & SP & K). exists w, p, M.
  split; [exact E|]. split; [|split; [exact LE|exact N]]. split; [auto|]. split; [auto|]. split; [rewrite LE; auto|]. intros j l Ej. rewrite (N j l Ej). fold (ignored g j). unfold line_kept. destruct (ignored g j) eqn:I; [reflexivity|].
  destruct (list_eq_dec ascii_dec l []) as [->|NE]; [left; split; [constructor|]; split; [constructor|auto]|].
  destruct (K l (ex_intro _ j (conj Ej (conj I NE)))) as (t & E1 & E2). destruct (blanks_dec l) as [B|B].
  - left. split; [auto|]. split; [|congruence]. rewrite E2. rewrite E1 in B. apply blanks_app in B as [_ B]. apply blanks_app. auto.
  - right. split; [auto|]. exists t. auto.
Qed.
Lemma kept_comp g w1 p1 w2 p2 L M N : kept g w1 p1 L M -> kept g w2 p2 M N -> exists w p, kept g w p L N /\ (p = p2 \/ exists v, p = p2 ++ skipn v p1).
Proof.
  intros (BW1 & BP1 & LE1 & K1) (BW2 & BP2 & LE2 & K2).
  assert (BS : forall v l, blanks l -> blanks (skipn v l)). { intros v l B. rewrite <- (firstn_skipn v l) in B. now apply blanks_app in B. }
  assert (G : forall w p, blanks w -> blanks p -> (forall t t', p1 ++ t = w2 ++ t' -> exists q, w1 ++ t = w ++ q /\ p2 ++ t' = p ++ q) -> kept g w p L N).
  { intros w p BW BP Q. split; [auto|]. split; [auto|]. split; [lia|]. intros i l Ei. specialize (K1 i l Ei). destruct (nth_error M i) as [r|] eqn:Er.
    - specialize (K2 i r Er). destruct (nth_error N i) as [q|] eqn:Eq.
      + unfold line_kept in *. destruct (g && Nat.eqb i 0); [congruence|]. destruct K1 as [(B1 & B2 & B3)|(B1 & t & -> & ->)].
        * left. destruct K2 as [(_ & B4 & B5)|(B4 & _)]; [|contradiction]. auto.
        * right. split; [auto|]. destruct K2 as [(B4 & _)|(B4 & t' & E & ->)].
          -- exfalso. apply B1. apply blanks_app in B4 as [_ B4]. apply blanks_app. auto.
          -- destruct (Q t t' E) as (q & E1 & E2). exists q. auto.
      + unfold line_kept in K1. destruct (g && Nat.eqb i 0); [congruence|]. cbn [andb] in *. destruct K1 as [(B1 & _)|(_ & t & -> & ->)]; [auto|]. apply blanks_app in K2 as [_ K2]. apply blanks_app. auto.
    - assert (nth_error N i = None) as ->; [|auto]. apply nth_error_None in Er. apply nth_error_None. lia. }
  destruct (Nat.le_gt_cases (List.length p1) (List.length w2)) as [LE|GT].
  - exists (w1 ++ skipn (List.length p1) w2), p2. split; [|auto]. apply G; [apply blanks_app; auto|auto|]. intros t t' E. exists t'. split; [|auto]. rewrite <- app_assoc. f_equal.
    assert (E2 := f_equal (skipn (List.length p1)) E). rewrite skipn_app, Nat.sub_diag, skipn_all in E2. rewrite skipn_app in E2. replace (List.length p1 - List.length w2) with 0 in E2 by lia. exact E2.
  - exists w1, (p2 ++ skipn (List.length w2) p1). split; [|eauto]. apply G; [auto|apply blanks_app; auto|]. intros t t' E. exists t. split; [auto|]. rewrite <- app_assoc. f_equal.
    assert (E2 := f_equal (skipn (List.length w2)) E). rewrite (skipn_app _ w2), Nat.sub_diag, skipn_all in E2. rewrite skipn_app in E2. replace (List.length w2 - List.length p1) with 0 in E2 by lia. symmetry. exact E2.
Qed.

(** ** Back to a text and to its lines *)
Definition clean (l : text) : Prop := ~ In newline l /\ forall x, l <> x ++ [ascii_of_nat 13].
Lemma drop_last_cr_id l : (forall x, l <> x ++ [ascii_of_nat 13]) -> drop_last_cr l = l.
Proof.
  intros H. unfold drop_last_cr. destruct (rev l) as [|c r] eqn:E; [reflexivity|]. destruct (Ascii.eqb_spec c (ascii_of_nat 13)) as [->|]; [|reflexivity]. exfalso. apply (H (rev r)). apply (f_equal (@rev _)) in E. now rewrite rev_involutive in E.
Qed.
Lemma lines_tail_two x z l : lines_tail (x :: z :: l) = drop_last_cr x :: lines_tail (z :: l).
Proof. destruct x; reflexivity. Qed.
Definition dropped (L L' : list text) : Prop := L' = L \/ L = L' ++ [[]].
Lemma lines_tail_dropped : forall L, Forall (fun l => forall x, l <> x ++ [ascii_of_nat 13]) L -> dropped L (lines_tail L).
Proof.
  induction L as [|l L IH]; intros F; [left; reflexivity|]. inversion F as [|? ? H F']; subst. destruct L as [|l' L].
  - destruct l; cbn; [right; reflexivity|left; reflexivity].
  - rewrite lines_tail_two. rewrite (drop_last_cr_id l H). destruct (IH F') as [E|E]; [left; exact (f_equal (cons l) E)|right; exact (f_equal (cons l) E)].
Qed.
Lemma tlines_join M : Forall clean M -> dropped M (tlines (join [newline] M)).
Proof.
  intros F. destruct M as [|m M]; [left; reflexivity|]. unfold tlines. rewrite split_join; [|discriminate|eapply Forall_impl; [|exact F]; now intros a []]. apply lines_tail_dropped. eapply Forall_impl; [|exact F]. now intros a [].
Qed.
Lemma tlines_lacks s : Forall (fun l => ~ In newline l) (tlines s).
Proof.
  unfold tlines. pose proof (split_at_lacks newline s) as F. induction (split_at newline s) as [|l L IH]; [constructor|]. inversion F as [|? ? H F']; subst. destruct L as [|l' L].
  - destruct l; cbn; [constructor|constructor; auto].
  - rewrite lines_tail_two. constructor; [|auto]. unfold drop_last_cr. destruct (rev l) as [|c r] eqn:E; [auto|]. destruct (Ascii.eqb c (ascii_of_nat 13)); [|auto].
    intros I. apply H. apply in_rev. rewrite E. right. now apply in_rev.
Qed.
Lemma clean_tlines s : no_stray_cr s -> Forall clean (tlines s).
Proof. intros H. pose proof (tlines_lacks s) as F. unfold no_stray_cr in H. rewrite Forall_forall in *. intros l I. split; auto. Qed.
Lemma blanks_clean l : blanks l -> clean l.
Proof.
  intros B. unfold blanks in B. rewrite Forall_forall in B. split.
  - intros I. destruct (B _ I) as [E|E]; discriminate.
  - intros x ->. destruct (B (ascii_of_nat 13)) as [E|E]; [apply in_or_app; right; left; auto|discriminate..].
Qed.
Lemma clean_swap w p t : blanks w -> blanks p -> clean (w ++ t) -> clean (p ++ t).
Proof.
  intros BW BP [N C]. split.
  - intros I. apply in_app_or in I as [I|I]; [now apply blanks_clean in BP as [BP _]|]. apply N, in_or_app. auto.
  - intros x E. destruct t as [|c t _] using rev_ind.
    + rewrite app_nil_r in E. apply blanks_clean in BP as [_ BP]. now apply BP in E.
    + rewrite app_assoc in E. apply app_inj_tail in E as [_ ->]. apply (C (w ++ t)). now rewrite app_assoc.
Qed.
Lemma kept_clean g w p L M : kept g w p L M -> List.length M = List.length L -> Forall clean L -> Forall clean M.
Proof.
  intros (BW & BP & _ & K) LE F. rewrite Forall_forall in *. intros r I. apply In_nth_error in I as [i Ei]. destruct (nth_error L i) as [l|] eqn:El; [|apply nth_error_None in El; apply nth_error_Some_length in Ei || (assert (nth_error M i <> None) by congruence; apply nth_error_Some in H; lia)].
  specialize (K i l El). rewrite Ei in K. unfold line_kept in K. apply nth_error_In in El. destruct (g && Nat.eqb i 0); [subst; auto|]. destruct K as [(_ & B & _)|(_ & t & -> & ->)]; [now apply blanks_clean|]. apply (clean_swap w); auto.
Qed.
Lemma dropped_nth M M' i r : dropped M M' -> nth_error M i = Some r -> nth_error M' i = Some r \/ (nth_error M' i = None /\ r = []).
Proof.
  intros [->|E] H; [auto|]. subst M. destruct (Nat.lt_ge_cases i (List.length M')) as [L|L].
  - rewrite nth_error_app1 in H; auto.
  - right. rewrite nth_error_app2 in H by auto. split; [now apply nth_error_None|]. destruct (i - List.length M') as [|[|?]]; cbn in H; congruence.
Qed.
Lemma dropped_length M M' : dropped M M' -> List.length M' <= List.length M <= S (List.length M').
Proof. intros [->| ->]; [lia|]. rewrite app_length. cbn. lia. Qed.
Lemma kept_dropped g w p L M M' : kept g w p L M -> dropped M M' -> kept g w p L M'.
Proof.
  intros (BW & BP & LE & K) D. split; [auto|]. split; [auto|]. split; [pose proof (dropped_length _ _ D); lia|]. intros i l El. specialize (K i l El). destruct (nth_error M i) as [r|] eqn:Er.
  - destruct (dropped_nth _ _ _ _ D Er) as [->|[-> ->]]; [auto|]. unfold line_kept in K. destruct (g && Nat.eqb i 0); [congruence|]. destruct K as [(B & _)|(B & t & -> & E)]; [auto|]. symmetry in E. apply app_eq_nil in E as [-> ->]. now rewrite app_nil_r.
  - destruct (nth_error M' i) as [r|] eqn:Er'; [|auto]. apply nth_error_None in Er. assert (nth_error M' i <> None) as H by congruence. apply nth_error_Some in H. pose proof (dropped_length _ _ D). lia.
Qed.
Lemma dropped_clean M M' : dropped M M' -> Forall clean M -> Forall clean M'.
Proof. intros [->| ->]; [auto|]. rewrite Forall_app. tauto. Qed.

(** The three passes. *)
Lemma passes s g n : no_stray_cr s -> exists M2 w p M3 w3 p3, let s2 := join [newline] M2 in
  reindent_multiline s g n = reindent_multiline_inner s2 g n " "%char /\ reindent_multiline_inner s2 g n " "%char = Some (join [newline] M3) /\
  kept g w p (tlines s) (tlines s2) /\ kept g w3 p3 (tlines s2) M3 /\ List.length (tlines s) <= List.length (tlines s2) + 2 /\ List.length M3 = List.length (tlines s2) /\ Forall clean M3 /\
  (forall j l, nth_error (tlines s2) j = Some l -> nth_error M3 j = Some (if ignored g j then l else rewritten (minlead g " "%char (tlines s2)) (match n with Some k => k | None => 0 end) l)).
Proof.
  intros NC. destruct (kept_pass g n " "%char s ltac:(auto)) as (w1 & p1 & M1 & E1 & K1 & LE1 & S1).
  pose proof (kept_clean _ _ _ _ _ K1 LE1 (clean_tlines s NC)) as C1. pose proof (tlines_join M1 C1) as D1.
  destruct (kept_pass g n tab (join [newline] M1) ltac:(auto)) as (w2 & p2 & M2 & E2 & K2 & LE2 & S2).
  pose proof (kept_clean _ _ _ _ _ K2 LE2 (dropped_clean _ _ D1 C1)) as C2. pose proof (tlines_join M2 C2) as D2.
  destruct (kept_pass g n " "%char (join [newline] M2) ltac:(auto)) as (w3 & p3 & M3 & E3 & K3 & LE3 & S3).
  pose proof (kept_clean _ _ _ _ _ K3 LE3 (dropped_clean _ _ D2 C2)) as C3.
  destruct (kept_comp _ _ _ _ _ _ _ _ (kept_dropped _ _ _ _ _ _ K1 D1) (kept_dropped _ _ _ _ _ _ K2 D2)) as (w & p & K & _).
  exists M2, w, p, M3, w3, p3. cbv zeta. split; [unfold reindent_multiline; rewrite E1; cbn [bind_opt]; rewrite E2; reflexivity|]. split; [exact E3|]. split; [exact K|]. split; [exact K3|].
  split; [pose proof (dropped_length _ _ D1); pose proof (dropped_length _ _ D2); lia|]. split; [exact LE3|]. split; [exact C3|exact S3].
Qed.
Lemma pieces_join M : Forall clean M -> pieces (join [newline] M) = match M with [] => [[]] | _ => M end.
Proof. intros F. unfold pieces. destruct M as [|m M]; [reflexivity|]. apply split_join; [discriminate|]. eapply Forall_impl; [|exact F]. now intros a []. Qed.
Lemma reindent_keeps s g n : no_stray_cr s -> exists r w p, reindent_multiline s g n = Some r /\ blanks w /\ blanks p /\ lines_kept g w p (tlines s) (pieces r) /\
  List.length (pieces r) <= Nat.max 1 (List.length (tlines s)) /\ List.length (tlines s) <= List.length (pieces r) + 2.
Proof.
  intros NC. destruct (passes s g n NC) as (M2 & w & p & M3 & w3 & p3 & E & E3 & K & K3 & LE & LE3 & C3 & N3). destruct (kept_comp _ _ _ _ _ _ _ _ K K3) as (w' & p' & (BW & BP & LK & KK) & _).
  exists (join [newline] M3), w', p'. split; [congruence|]. split; [auto|]. split; [auto|]. rewrite (pieces_join M3 C3). destruct M3 as [|m M3].
  - split; [|change (List.length [[]]) with 1; change (List.length []) with 0 in *; lia]. intros [|i] l El; [|specialize (KK (S i) l El); cbn; now destruct i]. specialize (KK 0 l El). cbn in KK. cbn [nth_error]. unfold line_kept. destruct g; cbn.
    + now subst.
    + left. split; [auto|]. split; [constructor|auto].
  - split; [exact KK|]. lia.
Qed.

(** ** The resulting indentation *)
Lemma rewritten_indent x k l t : l <> [] -> l = repeat " "%char x ++ t -> rewritten x k l = repeat " "%char k ++ t.
Proof.
  intros NE E. unfold rewritten. destruct l as [|c l]; [congruence|]. cbn [is_empty]. rewrite E. destruct (Nat.ltb_spec k x) as [LT|GE].
  - replace x with ((x - k) + k) at 2 by lia. rewrite repeat_app, <- app_assoc, skipn_app, repeat_length, Nat.sub_diag, skipn_all2 by (rewrite repeat_length; auto). reflexivity.
  - rewrite app_assoc, <- repeat_app. replace (k - x + x) with k by lia. reflexivity.
Qed.
Lemma last_pass g n s M : (forall j l, nth_error (tlines s) j = Some l -> nth_error M j = Some (if ignored g j then l else rewritten (minlead g " "%char (tlines s)) n l)) -> List.length M = List.length (tlines s) ->
  (forall r, active g M r -> indented_at_least n r) /\
  (0 < n \/ no_blank_lines g (tlines s) -> (exists r, active g M r) -> exists r, active g M r /\ indented n r).
Proof.
  intros N LE. destruct (minlead_spec g " "%char (tlines s)) as [LOW ATT]. set (x := minlead g " "%char (tlines s)) in *.
  assert (SRC : forall i r, nth_error M i = Some r -> ignored g i = false -> r <> [] -> exists l, nth_error (tlines s) i = Some l /\ l <> [] /\ r = rewritten x n l).
  { intros i r Er I NE. destruct (nth_error (tlines s) i) as [l|] eqn:El.
    - exists l. rewrite (N i l El), I in Er. injection Er as <-. split; [reflexivity|]. split; [|reflexivity]. intros ->. now apply NE.
    - apply nth_error_None in El. assert (H : nth_error M i <> None) by congruence. apply nth_error_Some in H. lia. }
  split.
  - intros r (i & Er & I & NE). destruct (SRC i r Er I NE) as (l & El & NL & ->). pose proof (LOW l (ex_intro _ i (conj El (conj I NL)))) as L. destruct (leading_split _ _ _ L) as (t & E). exists t. now apply rewritten_indent.
  - intros H (r & i & Er & I & NE). destruct (SRC i r Er I NE) as (l & El & NL & _). destruct (ATT (ex_intro _ l (ex_intro _ i (conj El (conj I NL))))) as (l0 & A0 & E0).
    destruct (leading_split " "%char l0 x ltac:(lia)) as (t & E). destruct A0 as (j & Ej & Ij & Nj). exists (rewritten x n l0). pose proof (rewritten_indent x n l0 t Nj E) as R. rewrite E, leading_repeat in E0. split.
    + exists j. split; [now rewrite (N j l0 Ej), Ij|]. split; [auto|]. rewrite R. intros Z. apply app_eq_nil in Z as [Z1 ->]. destruct H as [H|H]; [destruct n; [lia|discriminate]|]. apply (H l0 (ex_intro _ j (conj Ej (conj Ij Nj)))). rewrite E, app_nil_r. apply blanks_repeat. auto.
    + exists t. split; [exact R|]. destruct t as [|c t]; [auto|]. intros ->. cbn in E0. unfold leading in E0. cbn in E0. lia.
Qed.
Lemma kept_no_blank g w p L M : kept g w p L M -> no_blank_lines g L -> no_blank_lines g M.
Proof.
  intros (BW & BP & LE & K) NB r (i & Er & I & NE) B. destruct (nth_error L i) as [l|] eqn:El.
  - specialize (K i l El). rewrite Er in K. fold (ignored g i) in K. rewrite I in K. cbn in K. destruct K as [(B1 & _ & B2)|(B1 & t & -> & ->)].
    + destruct (list_eq_dec ascii_dec l []) as [->|NL]; [now apply NE, B2|]. apply (NB l); [exists i; auto|auto].
    + apply B1. apply blanks_app in B as [_ B]. apply blanks_app. auto.
  - apply nth_error_None in El. assert (H : nth_error M i <> None) by congruence. apply nth_error_Some in H. lia.
Qed.
Lemma reindent_indent s g n : no_stray_cr s -> exists r, let k := match n with Some k => k | None => 0 end in reindent_multiline s g n = Some r /\
  (forall l, active g (pieces r) l -> indented_at_least k l) /\
  (0 < k \/ no_blank_lines g (tlines s) -> (exists l, active g (pieces r) l) -> exists l, active g (pieces r) l /\ indented k l).
Proof.
  intros NC. destruct (passes s g n NC) as (M2 & w & p & M3 & w3 & p3 & E & E3 & K & K3 & LE & LE3 & C3 & N3). set (s2 := join [newline] M2) in *.
  exists (join [newline] M3). cbv zeta. split; [congruence|]. destruct (last_pass g _ s2 M3 N3 LE3) as [H1 H2].
  assert (A : forall l, active g (pieces (join [newline] M3)) l <-> active g M3 l).
  { intros l. rewrite (pieces_join M3 C3). destruct M3; [|tauto]. split; intros ([|[|i]] & Ei & _ & NE); cbn in Ei; try discriminate. congruence. }
  split; [intros l AL; apply H1, A, AL|]. intros Q (l & AL). destruct H2 as (r & AR & IR).
  - destruct Q as [Q|Q]; [auto|right]. now apply (kept_no_blank g w p (tlines s)).
  - exists l. now apply A.
  - exists r. split; [now apply A|auto].
Qed.
