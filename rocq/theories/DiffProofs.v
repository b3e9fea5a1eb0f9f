(** Comparing two runs of lintcheck: what is reported as added, removed and changed. *)
From Verif Require Export DiffModel.
From Verif Require Import Text DevSpec DevProofs DevProofs3.
From Coq Require Import Lia Permutation Sorted.

(** ** Specification *)
Definition same_place (a b : warning) : Prop := w_name a = w_name b /\ w_file_line a = w_file_line b.
Definition at_place (a b : warning) : bool := teqb (w_name a) (w_name b) && teqb (w_file_line a) (w_file_line b).
(** Warnings in the order of their lints, and for each lint in the order of places. *)
Definition before (a b : warning) : Prop := text_lt (w_name a) (w_name b) \/ (w_name a = w_name b /\ text_le (w_file_line a) (w_file_line b)).
Definition in_order (l : list warning) : Prop := StronglySorted before l.

(** ** Proofs *)
Lemma at_place_iff a b : at_place a b = true <-> same_place a b.
Proof. unfold at_place, same_place. rewrite andb_true_iff, !teqb_eq. tauto. Qed.
Definition less (a b : warning) : Prop := text_lt (w_name a) (w_name b) \/ (w_name a = w_name b /\ text_lt (w_file_line a) (w_file_line b)).
Lemma key_cmp_spec a b : CompareSpec (same_place a b) (less a b) (less b a) (key_cmp a b).
Proof.
  unfold key_cmp, less, same_place. destruct (text_cmp_spec (w_name a) (w_name b)) as [E|L|L]; [|constructor; auto|constructor; auto].
  destruct (text_cmp_spec (w_file_line a) (w_file_line b)) as [E'|L|L]; constructor; auto.
Qed.
Lemma less_not a b : less a b -> ~ same_place a b.
Proof. intros [L|[_ L]] [E F]; rewrite ?E, ?F in L; exact (text_lt_irrefl _ L). Qed.
Lemma less_before a b c : less a b -> before b c -> less a c.
Proof.
  intros [L|[E L]] [M|[F M]].
  - left. eapply text_lt_trans; eassumption.
  - left. rewrite <- F. exact L.
  - left. rewrite E. exact M.
  - right. split; [congruence|]. destruct M as [M|M]; [rewrite <- M; exact L|eapply text_lt_trans; eassumption].
Qed.
Lemma before_refl a : before a a.
Proof. right. split; [reflexivity|left; reflexivity]. Qed.
Lemma before_name a b : before a b -> text_le (w_name a) (w_name b).
Proof. intros [L|[E _]]; [right; exact L|left; exact E]. Qed.
Lemma less_is_before a b : less a b -> before a b.
Proof. intros [L|[E L]]; [left; exact L|right; split; [exact E|right; exact L]]. Qed.
Lemma same_before a b c : same_place a b -> before b c -> before a c.
Proof. intros [E F] [L|[G L]]; [left; rewrite E; exact L|right; split; [congruence|rewrite F; exact L]]. Qed.
Lemma insert_by_key_perm x l : Permutation (x :: l) (insert_by_key x l).
Proof. induction l as [|y l IH]; cbn; [reflexivity|]. destruct (key_cmp x y); [reflexivity|reflexivity|]. rewrite perm_swap. constructor. exact IH. Qed.
Lemma before_trans a b c : before a b -> before b c -> before a c.
Proof.
  intros [L|[E L]] H; [apply less_is_before, (less_before _ b); [left; exact L|exact H]|]. destruct L as [F|L]; [apply (same_before a b c); [split; assumption|exact H]|].
  apply less_is_before, (less_before _ b); [right; auto|exact H].
Qed.
Lemma insert_by_key_order x l : in_order l -> in_order (insert_by_key x l).
Proof.
  induction 1 as [|y l S IH F]; cbn; [repeat constructor|]. destruct (key_cmp_spec x y) as [E|L|L].
  - constructor; [constructor; assumption|]. assert (B : before x y) by (apply (same_before x y y E), before_refl). constructor; [exact B|]. eapply Forall_impl; [|exact F]. intros z. apply before_trans, B.
  - constructor; [constructor; assumption|]. constructor; [apply less_is_before, L|]. eapply Forall_impl; [|exact F]. intros z. apply before_trans, less_is_before, L.
  - constructor; [exact IH|]. rewrite <- insert_by_key_perm. constructor; [apply less_is_before, L|exact F].
Qed.
Lemma output_ok l : Permutation l (output l) /\ in_order (output l).
Proof.
  induction l as [|x l [P S]]; [split; [reflexivity|constructor]|]. cbn. split; [rewrite <- insert_by_key_perm; constructor; exact P|apply insert_by_key_order, S].
Qed.
(** Places are kept in the order they came in. *)
Lemma same_place_cmp x y k : same_place x y -> at_place x k = at_place y k.
Proof. intros [E F]. unfold at_place. rewrite E, F. reflexivity. Qed.
Lemma insert_stable x l k : filter (fun w => at_place w k) (insert_by_key x l) = if at_place x k then x :: filter (fun w => at_place w k) l else filter (fun w => at_place w k) l.
Proof.
  induction l as [|y l IH]; cbn [insert_by_key filter]; [destruct (at_place x k); reflexivity|]. destruct (key_cmp_spec x y) as [E|L|L]; cbn [filter]; try (destruct (at_place x k); reflexivity).
  rewrite IH. destruct (at_place x k) eqn:AX; [|reflexivity]. destruct (at_place y k) eqn:AY; [|reflexivity]. exfalso. apply at_place_iff in AX, AY. apply (less_not y x L). destruct AX, AY. split; congruence.
Qed.
Lemma output_stable l k : filter (fun w => at_place w k) (output l) = filter (fun w => at_place w k) l.
Proof. induction l as [|x l IH]; [reflexivity|]. change (output (x :: l)) with (insert_by_key x (output l)). rewrite insert_stable, IH. cbn. reflexivity. Qed.

(** The merge, place by place. *)
Definition rights := flat_map (fun c => match c with Right n => [n] | _ => [] end).
Definition lefts := flat_map (fun c => match c with Left o => [o] | _ => [] end).
Definition boths := flat_map (fun c => match c with Both o n => [(o, n)] | _ => [] end).
Lemma merge_join_eq old new : merge_join old new = match old, new with
    | [], _ => map Right new
    | _, [] => map Left old
    | o :: old', n :: new' => match key_cmp o n with Lt => Left o :: merge_join old' new | Gt => Right n :: merge_join old new' | Eq => Both o n :: merge_join old' new' end
    end.
Proof. destruct old as [|o old], new as [|n new]; reflexivity. Qed.
Lemma rights_map l : rights (map Right l) = l. Proof. induction l as [|x l IH]; cbn; [reflexivity|]. f_equal. exact IH. Qed.
Lemma lefts_map l : lefts (map Left l) = l. Proof. induction l as [|x l IH]; cbn; [reflexivity|]. f_equal. exact IH. Qed.
Lemma lefts_right l : lefts (map Right l) = []. Proof. induction l; cbn; auto. Qed.
Lemma rights_left l : rights (map Left l) = []. Proof. induction l; cbn; auto. Qed.
Lemma boths_left l : boths (map Left l) = []. Proof. induction l; cbn; auto. Qed.
Lemma boths_right l : boths (map Right l) = []. Proof. induction l; cbn; auto. Qed.
Lemma filter_later o l k : in_order (o :: l) -> forall x, less x o -> at_place x k = true -> filter (fun w => at_place w k) (o :: l) = [].
Proof.
  intros S x L A. assert (G : forall y, In y (o :: l) -> at_place y k = false).
  { intros y J. destruct (at_place y k) eqn:AY; [|reflexivity]. exfalso. assert (LY : less x y). { destruct J as [<-|J]; [exact L|]. inversion S as [|? ? _ F]; subst. apply (less_before x o y L). rewrite Forall_forall in F. apply F, J. }
    apply (less_not _ _ LY). apply at_place_iff in A, AY. destruct A, AY. split; congruence. }
  clear -G. induction (o :: l) as [|y r IH]; [reflexivity|]. cbn. rewrite (G y (or_introl eq_refl)). apply IH. intros z J. apply G. right. exact J.
Qed.
Lemma skipn_none {A} n : skipn n (@nil A) = [].
Proof. destruct n; reflexivity. Qed.
Lemma merge_places k : forall s old new, List.length old + List.length new <= s -> in_order old -> in_order new ->
  let o := filter (fun w => at_place w k) old in let n := filter (fun w => at_place w k) new in
  filter (fun w => at_place w k) (lefts (merge_join old new)) = skipn (List.length n) o /\
  filter (fun w => at_place w k) (rights (merge_join old new)) = skipn (List.length o) n /\
  filter (fun p => at_place (fst p) k) (boths (merge_join old new)) = combine o n.
Proof.
  induction s as [|s IH]; intros old new L SO SN; rewrite merge_join_eq.
  { destruct old, new; cbn in L; try lia. cbn. auto. }
  destruct old as [|a old].
  { rewrite lefts_right, rights_map, boths_right. cbn zeta. cbn [filter List.length skipn combine]. rewrite skipn_none. auto. }
  destruct new as [|b new].
  { rewrite lefts_map, rights_left, boths_left. cbn zeta. cbn [filter List.length skipn]. rewrite skipn_none. destruct (at_place a k); [|destruct (filter _ old)]; auto. }
  cbn [List.length] in L. inversion SO as [|? ? SO' FO]; subst. inversion SN as [|? ? SN' FN]; subst. destruct (key_cmp_spec a b) as [E|LT|LT].
  - destruct (IH old new ltac:(lia) SO' SN') as (H1 & H2 & H3). cbn [lefts rights boths flat_map app]. fold lefts rights boths. cbn zeta in *. cbn [filter fst]. rewrite <- (same_place_cmp a b k E). rewrite H1, H2, H3. destruct (at_place a k); cbn; auto.
  - destruct (IH old (b :: new) ltac:(cbn; lia) SO' SN) as (H1 & H2 & H3). cbn [lefts rights boths flat_map app]. fold lefts rights boths. cbn zeta in *. cbn [filter fst] in *. destruct (at_place a k) eqn:AA; [|auto].
    pose proof (filter_later b new k SN a LT AA) as Z. cbn [filter] in Z. rewrite Z in *. cbn [List.length skipn combine] in *. rewrite H1, H2, H3, !skipn_none. destruct (filter _ old); auto.
  - destruct (IH (a :: old) new ltac:(cbn; lia) SO SN') as (H1 & H2 & H3). cbn [lefts rights boths flat_map app]. fold lefts rights boths. cbn zeta in *. cbn [filter fst] in *. destruct (at_place b k) eqn:AB; [|auto].
    pose proof (filter_later a old k SO b LT AB) as Z. cbn [filter] in Z. rewrite Z in *. cbn [List.length skipn combine] in *. rewrite H1, H2, H3, !skipn_none. auto.
Qed.
(** Rows. *)
Section Chunks.
  Context {A : Type} (key : A -> text).
  Lemma chunk_concat l : flat_map snd (chunk_by key l) = l.
  Proof. induction l as [|c l IH]; [reflexivity|]. cbn. destruct (chunk_by key l) as [|[k g] rest]; cbn in *; [rewrite <- IH; reflexivity|]. destruct (teqb _ k); cbn; rewrite <- IH; reflexivity. Qed.
  Lemma chunk_name l : forall k g c, In (k, g) (chunk_by key l) -> In c g -> key c = k.
  Proof.
    induction l as [|c l IH]; intros k g d J D; [destruct J|]. cbn in J. destruct (chunk_by key l) as [|[k' g'] rest] eqn:E.
    - destruct J as [J|[]]. injection J as <- <-. destruct D as [<-|[]]. reflexivity.
    - destruct (teqb (key c) k') eqn:T.
      + destruct J as [J|J]; [injection J as <- <-|apply (IH k g d); [right; exact J|exact D]]. destruct D as [<-|D]; [apply teqb_eq, T|apply (IH k' g' d); [left; reflexivity|exact D]].
      + destruct J as [J|J]; [injection J as <- <-; destruct D as [<-|[]]; reflexivity|]. apply (IH k g d J D).
  Qed.
  Lemma chunk_nonempty l k g : In (k, g) (chunk_by key l) -> g <> [].
  Proof.
    revert k g. induction l as [|c l IH]; intros k g; [intros []|]. cbn. destruct (chunk_by key l) as [|[k' g'] rest]; [intros [J|[]]; injection J as <- <-; discriminate|].
    destruct (teqb (key c) k'); intros [J|J]; try (injection J as <- <-; discriminate); apply (IH k g); first [exact J|right; exact J].
  Qed.
  Lemma chunk_sorted l : StronglySorted (fun a b => text_le (key a) (key b)) l -> StronglySorted text_lt (map fst (chunk_by key l)).
  Proof.
    induction 1 as [|c l S IH F]; [constructor|]. cbn. destruct (chunk_by key l) as [|[k g] rest] eqn:E; [repeat constructor|]. cbn [map fst] in IH. inversion IH as [|? ? S' F']; subst.
    destruct (teqb (key c) k) eqn:T; [constructor; assumption|]. cbn [map fst].
    assert (LE : text_le (key c) k).
    { assert (NE : g <> []) by (apply (chunk_nonempty l k); rewrite E; left; reflexivity). destruct g as [|d g]; [congruence|].
      rewrite <- (chunk_name l k (d :: g) d); [|rewrite E; left; reflexivity|left; reflexivity]. rewrite Forall_forall in F. apply F. rewrite <- (chunk_concat l), E. left. reflexivity. }
    assert (LT : text_lt (key c) k). { destruct LE as [Q|Q]; [|exact Q]. rewrite <- teqb_eq in Q. congruence. }
    constructor; [exact IH|]. constructor; [exact LT|]. eapply Forall_impl; [|exact F']. intros z. apply text_lt_trans, LT.
  Qed.
  (** In a sorted list the run of a key is everything with that key. *)
  Lemma chunk_filter l : StronglySorted (fun a b => text_le (key a) (key b)) l -> forall k g, In (k, g) (chunk_by key l) <-> (g = filter (fun x => teqb (key x) k) l /\ g <> []).
  Proof.
    intros S. pose proof (chunk_sorted l S) as SC.
    assert (ALL : forall cs, StronglySorted text_lt (map fst cs) -> (forall k g c, In (k, g) cs -> In c g -> key c = k) -> forall k g, In (k, g) cs -> filter (fun x => teqb (key x) k) (flat_map snd cs) = g).
    { induction cs as [|[k g] cs IH]; intros SO NM k' g' J; [destruct J|]. cbn [map fst flat_map snd] in *. inversion SO as [|? ? SO' F]; subst. rewrite filter_app.
      assert (KEEP : forall h : list A, (forall c, In c h -> key c = k') -> filter (fun x => teqb (key x) k') h = h).
      { induction h as [|c h IHh]; intros X; [reflexivity|]. cbn. rewrite (X c (or_introl eq_refl)), teqb_refl, IHh; [reflexivity|]. intros; apply X; right; assumption. }
      assert (DROP : forall h : list A, (forall c, In c h -> key c <> k') -> filter (fun x => teqb (key x) k') h = []).
      { induction h as [|c h IHh]; intros X; [reflexivity|]. cbn. destruct (teqb (key c) k') eqn:T; [apply teqb_eq in T; destruct (X c (or_introl eq_refl) T)|]. apply IHh. intros; apply X; right; assumption. }
      rewrite Forall_forall in F. destruct J as [J|J].
      - injection J as <- <-. rewrite KEEP by (intros c C; apply (NM k g c (or_introl eq_refl) C)). rewrite DROP; [apply app_nil_r|]. intros c C Q. apply in_flat_map in C. destruct C as ([k2 g2] & C1 & C2). cbn in C2.
        assert (key c = k2) by (apply (NM k2 g2); [right; exact C1|exact C2]). apply (text_lt_irrefl k). rewrite <- Q at 2. rewrite H. apply F. change k2 with (fst (k2, g2)). apply in_map, C1.
      - rewrite DROP. + cbn. apply IH; auto. intros; eapply NM; [right|]; eassumption.
        + intros c C Q. assert (key c = k) by (apply (NM k g); [left; reflexivity|exact C]). apply (text_lt_irrefl k). rewrite <- H at 2. rewrite Q. apply F. change k' with (fst (k', g')). apply in_map, J. }
    intros k g. split.
    - intros J. split; [|apply (chunk_nonempty l k g J)]. symmetry. rewrite <- (chunk_concat l) at 1. apply ALL; auto. apply chunk_name.
    - intros [E NE]. destruct g as [|x g]; [congruence|]. assert (X : In x l /\ key x = k). { assert (J : In x (filter (fun x => teqb (key x) k) l)) by (rewrite <- E; left; reflexivity). apply filter_In in J. rewrite teqb_eq in J. exact J. }
      destruct X as [X K]. rewrite <- (chunk_concat l) in X. apply in_flat_map in X. destruct X as ([k' g'] & C & X). cbn in X. assert (k' = k) by (rewrite <- K; symmetry; apply (chunk_name l k' g'); assumption). subst k'.
      pose proof (ALL _ SC (chunk_name l) k g' C) as G. rewrite chunk_concat in G. rewrite E, G. exact C.
  Qed.
End Chunks.
Lemma merge_names : forall s old new, List.length old + List.length new <= s -> in_order old -> in_order new ->
  StronglySorted (fun a b => text_le (change_name a) (change_name b)) (merge_join old new) /\
  (forall c, In c (merge_join old new) -> match c with Left o => In o old | Right n => In n new | Both o n => In o old /\ In n new /\ same_place o n end).
Proof.
  induction s as [|s IH]; intros old new L SO SN; rewrite merge_join_eq.
  { destruct old, new; cbn in L; try lia. cbn. split; [constructor|intros ? []]. }
  assert (SM : forall f l, (forall w, change_name (f w) = w_name w) -> in_order l -> StronglySorted (fun a b => text_le (change_name a) (change_name b)) (map f l)).
  { intros f l EQ. induction 1 as [|x l S' IH' F]; cbn; [constructor|]. constructor; [exact IH'|]. rewrite Forall_map. eapply Forall_impl; [|exact F]. intros y B. rewrite !EQ. apply before_name, B. }
  destruct old as [|a old].
  { split; [apply SM; auto|]. intros c J. apply in_map_iff in J. destruct J as (w & <- & J). exact J. }
  destruct new as [|b new].
  { split; [apply SM; auto|]. intros c J. apply in_map_iff in J. destruct J as (w & <- & J). exact J. }
  cbn [List.length] in L. inversion SO as [|? ? SO' FO]; subst. inversion SN as [|? ? SN' FN]; subst. rewrite Forall_forall in FO, FN.
  destruct (key_cmp_spec a b) as [E|LT|LT].
  - destruct (IH old new ltac:(lia) SO' SN') as (H1 & H2). split.
    + constructor; [exact H1|]. apply Forall_forall. intros c J. specialize (H2 c J). destruct c as [o|n|o n]; cbn.
      * apply before_name, FO, H2.
      * destruct E as [-> _]. apply before_name, FN, H2.
      * apply before_name, FO, (proj1 H2).
    + intros c [<-|J]; [repeat split; try (left; reflexivity); apply E|]. specialize (H2 c J). destruct c; cbn; tauto.
  - destruct (IH old (b :: new) ltac:(cbn; lia) SO' SN) as (H1 & H2). split.
    + constructor; [exact H1|]. apply Forall_forall. intros c J. specialize (H2 c J). destruct c as [o|n|o n]; cbn.
      * apply before_name, FO, H2.
      * apply before_name. destruct H2 as [<-|H2]; [apply less_is_before, LT|]. apply less_is_before, (less_before _ b); auto.
      * apply before_name, FO, (proj1 H2).
    + intros c [<-|J]; [left; reflexivity|]. specialize (H2 c J). destruct c; cbn in *; tauto.
  - destruct (IH (a :: old) new ltac:(cbn; lia) SO SN') as (H1 & H2). split.
    + constructor; [exact H1|]. apply Forall_forall. intros c J. specialize (H2 c J). destruct c as [o|n|o n]; cbn.
      * apply before_name. destruct H2 as [<-|H2]; [apply less_is_before, LT|]. apply less_is_before, (less_before _ a); auto.
      * apply before_name, FN, H2.
      * destruct H2 as ([<-|H2] & _); [apply before_name, less_is_before, LT|]. apply before_name, less_is_before, (less_before _ a); auto.
    + intros c [<-|J]; [left; reflexivity|]. specialize (H2 c J). destruct c; cbn in *; tauto.
Qed.
(** Dropping empty rows drops nothing. *)
Lemma rows_all {A} (f : lint_warnings -> list A) (g : text * list change -> list A) (keep : lint_warnings -> bool) :
  (forall c, f (collect c) = g c) -> (forall l, keep l = false -> f l = []) -> forall cs, flat_map f (filter keep (map collect cs)) = flat_map g cs.
Proof.
  intros E D. induction cs as [|c cs IH]; [reflexivity|]. cbn. destruct (keep (collect c)) eqn:K; cbn; rewrite IH, <- E; [reflexivity|]. rewrite (D _ K). reflexivity.
Qed.
Lemma flat_map_flat_map {A B C} (f : B -> list C) (g : A -> list B) l : flat_map (fun a => flat_map f (g a)) l = flat_map f (flat_map g l).
Proof. induction l as [|a l IH]; [reflexivity|]. cbn. rewrite flat_map_app, IH. reflexivity. Qed.
Lemma nonempty_false {A} (l : list A) : nonempty l = false -> l = []. Proof. destruct l; [reflexivity|discriminate]. Qed.
Lemma keep_false l : nonempty (l_added l) || nonempty (l_removed l) || nonempty (l_changed l) = false -> l_added l = [] /\ l_removed l = [] /\ l_changed l = [].
Proof. intros H. apply orb_false_elim in H. destruct H as [H H3]. apply orb_false_elim in H. destruct H as [H1 H2]. repeat split; apply nonempty_false; assumption. Qed.
Definition differs (p : warning * warning) : bool := negb (teqb (w_rendered (fst p)) (w_rendered (snd p))).
Lemma diff_added old new : flat_map l_added (diff old new) = rights (merge_join old new).
Proof. unfold diff. rewrite (rows_all l_added (fun c => rights (snd c))); [|reflexivity|intros l K; apply keep_false in K; tauto]. unfold rights, lefts. rewrite (flat_map_flat_map _ snd), chunk_concat. reflexivity. Qed.
Lemma diff_removed old new : flat_map l_removed (diff old new) = lefts (merge_join old new).
Proof. unfold diff. rewrite (rows_all l_removed (fun c => lefts (snd c))); [|reflexivity|intros l K; apply keep_false in K; tauto]. unfold rights, lefts. rewrite (flat_map_flat_map _ snd), chunk_concat. reflexivity. Qed.
Lemma boths_filter l : flat_map (fun c => match c with Both o n => if teqb (w_rendered o) (w_rendered n) then [] else [(o, n)] | _ => [] end) l = filter differs (boths l).
Proof. induction l as [|[o|n|o n] l IH]; cbn; auto. unfold differs at 1. cbn. destruct (teqb _ _); cbn; rewrite IH; reflexivity. Qed.
Lemma diff_changed old new : flat_map l_changed (diff old new) = filter differs (boths (merge_join old new)).
Proof. unfold diff. rewrite (rows_all l_changed (fun c => filter differs (boths (snd c)))); [|intros c; apply boths_filter|intros l K; apply keep_false in K; tauto].
  rewrite <- boths_filter. rewrite <- (chunk_concat change_name (merge_join old new)) at 2. rewrite <- (flat_map_flat_map _ snd). apply flat_map_ext. intros c. symmetry. apply boths_filter. Qed.
Lemma filter_comm {A} (f g : A -> bool) l : filter f (filter g l) = filter g (filter f l).
Proof. induction l as [|x l IH]; [reflexivity|]. cbn. destruct (f x) eqn:F, (g x) eqn:G; cbn; rewrite ?F, ?G; rewrite ?IH; reflexivity. Qed.
Lemma sorted_filter {A B} (R : B -> B -> Prop) (f : A -> B) (keep : A -> bool) l : StronglySorted R (map f l) -> StronglySorted R (map f (filter keep l)).
Proof.
  induction l as [|x l IH]; cbn; [auto|]. inversion 1 as [|? ? S F]; subst. destruct (keep x); [|auto]. cbn. constructor; [auto|]. rewrite Forall_forall in *. intros y J. apply F. apply in_map_iff in J. destruct J as (z & <- & J). apply filter_In in J. apply in_map, J.
Qed.
Lemma diff_rows old new : in_order old -> in_order new -> StronglySorted text_lt (map l_name (diff old new)) /\
  (forall l, In l (diff old new) -> (forall w, In w (l_added l) \/ In w (l_removed l) -> w_name w = l_name l) /\ (forall o n, In (o, n) (l_changed l) -> w_name o = l_name l /\ same_place o n /\ w_rendered o <> w_rendered n) /\
     ~ (l_added l = [] /\ l_removed l = [] /\ l_changed l = [])).
Proof.
  intros SO SN. destruct (merge_names _ old new (Nat.le_refl _) SO SN) as [S M]. split.
  - unfold diff. apply sorted_filter. rewrite map_map. apply chunk_sorted, S.
  - intros l J. unfold diff in J. apply filter_In in J. destruct J as [J K]. apply in_map_iff in J. destruct J as ([k g] & <- & J).
    assert (G : forall c, In c g -> change_name c = k /\ match c with Left o => In o old | Right n => In n new | Both o n => In o old /\ In n new /\ same_place o n end).
    { intros c D. split; [apply (chunk_name _ _ _ _ _ J D)|]. apply M. rewrite <- (chunk_concat change_name (merge_join old new)). apply in_flat_map. exists (k, g). split; [exact J|exact D]. }
    split; [|split].
    + intros w [W|W]; apply in_flat_map in W; destruct W as (c & D & W); destruct (G c D) as [N _]; destruct c; cbn in W; try contradiction; destruct W as [<-|[]]; exact N.
    + intros o n W. cbn [collect l_changed] in W. apply in_flat_map in W. destruct W as (c & D & W). destruct (G c D) as [N X]. destruct c as [?|?|o' n']; cbn in W; try contradiction. destruct (teqb _ _) eqn:T; [destruct W|]. destruct W as [W|[]]. injection W as <- <-.
      split; [exact N|]. split; [apply X|]. intros Q. apply teqb_eq in Q. cbn in T. congruence.
    + intros (E1 & E2 & E3). rewrite E1, E2, E3 in K. discriminate K.
Qed.
