(** Lint groups and lints of one priority; packages in several versions. *)
From Verif Require Export CargoModel.
From Verif Require Import Text DevSpec DevProofs DevProofs3 DiffProofs.
From Coq Require Import Lia Permutation Sorted.

(** ** Specification *)
(** Cargo passes one flag for each entry, by increasing priority and in no particular order within one; the last flag that concerns a lint decides. *)
Definition passed (table flags : list (text * config)) : Prop := Permutation table flags /\ StronglySorted (fun a b => (priority (snd a) <= priority (snd b))%Z) flags.
Definition concerns (known : list text) (members : text -> text -> bool) (x : text) (nc : text * config) : bool :=
  teqb (fst nc) x || (is_group known (fst nc) && members (fst nc) x).
Definition level (known : list text) (members : text -> text -> bool) (flags : list (text * config)) (x : text) : option text :=
  option_map (fun nc => c_level (snd nc)) (find (concerns known members x) (rev flags)).
(** The dependency graph: [n] has the normal dependency [d]; [d] is reached from [local]. *)
Definition normal_edge (nodes : list node) (n d : nat) : Prop := exists nd kinds, In nd nodes /\ n_id nd = n /\ In (d, kinds) (n_deps nd) /\ In true kinds.
Inductive reached (nodes : list node) (local : nat) : nat -> Prop :=
| Direct d : normal_edge nodes local d -> reached nodes local d
| Further m d : reached nodes local m -> normal_edge nodes m d -> reached nodes local d.

(** ** Proofs *)
Lemma find_last {A} (f : A -> bool) l x : find f (rev l) = Some x -> exists a b, l = a ++ x :: b /\ f x = true /\ forall y, In y b -> f y = false.
Proof.
  induction l as [|y l IH] using rev_ind; [discriminate|]. rewrite rev_unit. cbn. destruct (f y) eqn:E.
  - intros [= <-]. exists l, []. repeat split; auto. intros ? [].
  - intros H. destruct (IH H) as (a & b & -> & F & G). exists a, (b ++ [y]). rewrite <- app_assoc. repeat split; auto. intros z J. apply in_app_or in J. destruct J as [J|[<-|[]]]; auto.
Qed.
Lemma sorted_app {A} (R : A -> A -> Prop) a x b : StronglySorted R (a ++ x :: b) -> forall y, In y a -> R y x.
Proof. induction a as [|z a IH]; intros S y J; [destruct J|]. cbn in S. inversion S as [|? ? S' F]; subst. destruct J as [<-|J]; [|apply IH; auto]. rewrite Forall_forall in F. apply F, in_or_app. right; left; reflexivity. Qed.
(** The deciding flag has the highest priority of all that concern the lint. *)
Lemma last_highest known members flags x e : StronglySorted (fun a b => (priority (snd a) <= priority (snd b))%Z) flags -> find (concerns known members x) (rev flags) = Some e ->
  In e flags /\ concerns known members x e = true /\ forall y, In y flags -> concerns known members x y = true -> (priority (snd y) <= priority (snd e))%Z.
Proof.
  intros S H. destruct (find_last _ _ _ H) as (a & b & -> & C & N). split; [apply in_or_app; right; left; reflexivity|]. split; [exact C|]. intros y J CY. apply in_app_or in J. destruct J as [J|[<-|J]].
  - exact (sorted_app _ _ _ _ S y J).
  - lia.
  - rewrite (N y J) in CY. discriminate CY.
Qed.
Lemma rfind_none {A} (f : A -> bool) l : rfind f l = None -> forall x, In x l -> f x = false.
Proof. unfold rfind. intros H x J. apply (find_none _ _ H). rewrite <- in_rev. exact J. Qed.
Lemma unreported known table g gc l lc : check_table known table = [] -> In (g, gc) (groups_of known table) -> In (l, lc) (lints_of known table) -> priority gc = priority lc -> c_level gc = c_level lc.
Proof.
  unfold check_table. intros H JG JL P. destruct (rfind (fun '(_, lc) => (priority lc =? priority gc)%Z && negb (teqb (c_level lc) (c_level gc))) (lints_of known table)) as [[c cc]|] eqn:R.
  - exfalso. assert (X : In (g, priority gc, c, low_priority (lints_of known table)) []). { rewrite <- H. apply in_flat_map. exists (g, gc). split; [exact JG|]. cbv beta iota. rewrite R. left. reflexivity. } destruct X.
  - pose proof (rfind_none _ _ R _ JL) as F. cbv beta iota in F. rewrite P, Z.eqb_refl in F. cbn in F. apply negb_false_iff, teqb_eq in F. congruence.
Qed.
Lemma unambiguous known members table : NoDup (map fst table) -> ~ In (tx "warnings") (map fst table) -> check_table known table = [] ->
  (forall g gc h hc, In (g, gc) table -> In (h, hc) table -> is_group known g = true -> is_group known h = true -> priority gc = priority hc -> c_level gc = c_level hc) ->
  forall flags flags' x, passed table flags -> passed table flags' -> level known members flags x = level known members flags' x.
Proof.
  intros ND NW CH GG flags flags' x [P S] [P' S']. unfold level.
  assert (CONS : considered table = table).
  { unfold considered. clear -NW. induction table as [|nc t IH]; [reflexivity|]. cbn [filter map In] in *. destruct (teqb (fst nc) (tx "warnings")) eqn:T; [apply teqb_eq in T; exfalso; apply NW; left; exact T|]. cbn [negb]. f_equal. apply IH. intros J. apply NW. right. exact J. }
  destruct (find (concerns known members x) (rev flags)) as [e|] eqn:F, (find (concerns known members x) (rev flags')) as [e'|] eqn:F'; cbn.
  - destruct (last_highest _ _ _ _ _ S F) as (J & C & M). destruct (last_highest _ _ _ _ _ S' F') as (J' & C' & M').
    assert (JT : In e table) by (rewrite P; exact J). assert (JT' : In e' table) by (rewrite P'; exact J').
    assert (EQ : priority (snd e) = priority (snd e')). { apply Z.le_antisymm; [apply M'; [rewrite <- P'; exact JT|exact C]|apply M; [rewrite <- P; exact JT'|exact C']]. }
    f_equal. destruct e as [n c], e' as [n' c']. cbn [fst snd] in *.
    assert (GR : forall n c, In (n, c) table -> is_group known n = true -> In (n, c) (groups_of known table)) by (intros; unfold groups_of; rewrite CONS; apply filter_In; auto).
    assert (LI : forall n c, In (n, c) table -> is_group known n = false -> In (n, c) (lints_of known table)) by (intros ? ? ? Z; unfold lints_of; rewrite CONS; apply filter_In; cbn; rewrite Z; auto).
    destruct (is_group known n) eqn:G, (is_group known n') eqn:G'.
    + apply (GG n c n' c'); auto.
    + apply (unreported known table n c n' c'); auto.
    + symmetry. apply (unreported known table n' c' n c); auto.
    + unfold concerns in C, C'. cbn [fst] in C, C'. rewrite G in C. rewrite G' in C'. cbn in C, C'. rewrite orb_false_r in C, C'. apply teqb_eq in C, C'. subst n n'.
      assert (K : (x, c) = (x, c')). { clear -ND JT JT'. induction table as [|[m d] t IH]; [destruct JT|]. cbn in ND. inversion ND as [|? ? NI ND']; subst. destruct JT as [E|JT], JT' as [E'|JT'].
        - congruence. - injection E as -> ->. exfalso. apply NI. change x with (fst (x, c')). apply in_map, JT'. - injection E' as -> ->. exfalso. apply NI. change x with (fst (x, c)). apply in_map, JT. - apply IH; auto. }
      congruence.
  - exfalso. destruct (last_highest _ _ _ _ _ S F) as (J & C & _). pose proof (find_none _ _ F' e) as N. rewrite N in C; [discriminate C|]. rewrite <- in_rev. rewrite <- P'. rewrite P. exact J.
  - exfalso. destruct (last_highest _ _ _ _ _ S' F') as (J & C & _). pose proof (find_none _ _ F e') as N. rewrite N in C; [discriminate C|]. rewrite <- in_rev. rewrite <- P. rewrite P'. exact J.
  - reflexivity.
Qed.
Lemma fold_min_le r : forall x, (fold_left Z.min r x <= x)%Z /\ forall y, In y r -> (fold_left Z.min r x <= y)%Z.
Proof.
  induction r as [|z r IH]; intros x; cbn; [split; [lia|intros ? []]|]. destruct (IH (Z.min x z)) as [H1 H2]. split; [lia|]. intros y [<-|J]; [lia|apply H2, J].
Qed.
Lemma low_below lints l lc : In (l, lc) lints -> (i64_min < priority lc)%Z -> (low_priority lints < priority lc)%Z.
Proof.
  intros J M. unfold low_priority. assert (JM : In (saturating_pred (priority lc)) (map (fun nc => saturating_pred (priority (snd nc))) lints)) by (change (priority lc) with (priority (snd (l, lc))); apply (in_map (fun nc => saturating_pred (priority (snd nc)))); exact J).
  destruct (map _ lints) as [|x r]; [destruct JM|]. cbn [min_opt]. destruct (fold_min_le r x) as [H1 H2]. assert (fold_left Z.min r x <= saturating_pred (priority lc))%Z by (destruct JM as [<-|JM]; auto). unfold saturating_pred in *. lia.
Qed.
(** Dependencies. *)
Lemma depends_on_iff nodes n d : In n nodes -> depends_on n d = true -> normal_edge nodes (n_id n) d.
Proof.
  intros J H. unfold depends_on in H. apply existsb_exists in H. destruct H as ([p kinds] & JD & H). cbn in H. apply andb_prop in H. destruct H as [E K]. apply Nat.eqb_eq in E. subst p. apply existsb_exists in K. destruct K as (b & JB & ->). exists n, kinds. auto.
Qed.
Lemma edge_node nodes n d : normal_edge nodes n d -> exists nd, In nd nodes /\ n_id nd = n /\ depends_on nd d = true.
Proof.
  intros (nd & kinds & J & E & JD & T). exists nd. repeat split; auto. unfold depends_on. apply existsb_exists. exists (d, kinds). split; [exact JD|]. cbn. rewrite Nat.eqb_refl. apply existsb_exists. exists true. auto.
Qed.
Lemma any_opt_some {A} (f : A -> option bool) (P : A -> Prop) l : (forall x, In x l -> exists b, f x = Some b /\ (b = true <-> P x)) -> exists b, any_opt f l = Some b /\ (b = true <-> exists x, In x l /\ P x).
Proof.
  induction l as [|x l IH]; intros H; cbn; [exists false; split; [reflexivity|]; split; [discriminate|intros (? & [] & _)]|]. destruct (H x (or_introl eq_refl)) as (b & -> & B). destruct b.
  - exists true. split; [reflexivity|]. split; [|reflexivity]. intros _. exists x. split; [left; reflexivity|apply B; reflexivity].
  - destruct IH as (b & -> & I); [intros; apply H; right; assumption|]. exists b. split; [reflexivity|]. rewrite I. split; intros (y & J & Q).
    + exists y. split; [right; exact J|exact Q].
    + destruct J as [<-|J]; [|exists y; auto]. apply B in Q. discriminate Q.
Qed.
Lemma reached_step nodes local d : reached nodes local d <-> exists m, normal_edge nodes m d /\ (m = local \/ reached nodes local m).
Proof.
  split.
  - intros H. destruct H as [d E|m d H E]; [exists local; auto|exists m; auto].
  - intros (m & E & [->|H]); [apply Direct, E|apply (Further _ _ m d H E)].
Qed.
Lemma normal_dep_ok nodes local (rank : nat -> nat) : (forall n d, normal_edge nodes n d -> rank n < rank d) -> forall fuel dep, rank dep < fuel -> exists b, is_normal_dep fuel nodes local dep = Some b /\ (b = true <-> reached nodes local dep).
Proof.
  intros RK. induction fuel as [|fuel IH]; intros dep L; [lia|]. cbn [is_normal_dep].
  destruct (any_opt_some (fun n => if Nat.eqb (n_id n) local then Some true else is_normal_dep fuel nodes local (n_id n)) (fun n => n_id n = local \/ reached nodes local (n_id n)) (filter (fun n => depends_on n dep) nodes)) as (b & -> & B).
  - intros n J. apply filter_In in J. destruct J as [J D]. destruct (Nat.eqb_spec (n_id n) local) as [E|N]; [exists true; split; [reflexivity|]; split; auto|].
    destruct (IH (n_id n)) as (b & -> & B); [pose proof (RK _ _ (depends_on_iff nodes n dep J D)); lia|]. exists b. split; [reflexivity|]. rewrite B. split; [auto|]. intros [Q|Q]; [contradiction|exact Q].
  - exists b. split; [reflexivity|]. rewrite B, reached_step. split.
    + intros (n & J & Q). apply filter_In in J. destruct J as [J D]. exists (n_id n). split; [apply depends_on_iff; assumption|exact Q].
    + intros (m & E & Q). destruct (edge_node nodes m dep E) as (nd & J & <- & D). exists nd. split; [apply filter_In; auto|exact Q].
Qed.
Lemma find_unique {A} (f : A -> bool) l x : In x l -> f x = true -> (forall y, In y l -> f y = true -> y = x) -> find f l = Some x.
Proof.
  induction l as [|y l IH]; intros J F U; [destruct J|]. cbn. destruct (f y) eqn:E; [f_equal; apply U; [left; reflexivity|exact E]|]. apply IH; auto; [destruct J as [<-|J]; [congruence|exact J]|]. intros z JZ. apply U. right. exact JZ.
Qed.
Lemma sort_versions_perm l : Permutation l (sort_versions l).
Proof.
  assert (I : forall v l, Permutation (v :: l) (insert_version v l)). { intros v l0. induction l0 as [|w l0 IH]; cbn; [reflexivity|]. destruct (v <=? w); [reflexivity|]. rewrite perm_swap. constructor. exact IH. }
  induction l as [|v l IH]; cbn; [reflexivity|]. rewrite <- I. constructor. exact IH.
Qed.
Lemma sort_versions_sorted l : StronglySorted le (sort_versions l).
Proof.
  assert (I : forall v l, StronglySorted le l -> StronglySorted le (insert_version v l)).
  { intros v l0. induction 1 as [|w l0 S IH F]; cbn; [repeat constructor|]. destruct (Nat.leb_spec v w).
    - constructor; [constructor; assumption|]. constructor; [assumption|]. eapply Forall_impl; [|exact F]. intros z Q. cbn in Q. lia.
    - constructor; [exact IH|]. assert (P : Permutation (v :: l0) (insert_version v l0)). { clear. induction l0 as [|w l0 IH]; cbn; [reflexivity|]. destruct (v <=? w); [reflexivity|]. rewrite perm_swap. constructor. exact IH. }
      rewrite <- P. constructor; [lia|exact F]. }
  induction l as [|v l IH]; cbn; [constructor|]. apply I, IH.
Qed.
Lemma sort_by_filter {A} (key : A -> text) (k : text) l : filter (fun x => teqb (key x) k) (sort_by key l) = filter (fun x => teqb (key x) k) l.
Proof.
  assert (I : forall x l, filter (fun x => teqb (key x) k) (insert_sorted key x l) = filter (fun x => teqb (key x) k) (x :: l)).
  { intros x l0. induction l0 as [|y l0 IH]; [reflexivity|]. cbn [insert_sorted]. destruct (text_leb (key x) (key y)) eqn:E; [reflexivity|]. cbn [filter] in *. rewrite IH. destruct (teqb (key x) k) eqn:T, (teqb (key y) k) eqn:U; try reflexivity.
    exfalso. apply teqb_eq in T, U. rewrite T, U in E. assert (text_leb k k = true) by (apply text_leb_le; left; reflexivity). congruence. }
  induction l as [|x l IH]; [reflexivity|]. change (sort_by key (x :: l)) with (insert_sorted key x (sort_by key l)). rewrite I. cbn. rewrite IH. reflexivity.
Qed.
Lemma filter_sorted {A} (R : A -> A -> Prop) f l : StronglySorted R l -> StronglySorted R (filter f l).
Proof. induction 1 as [|x l S IH F]; cbn; [constructor|]. destruct (f x); [|exact IH]. constructor; [exact IH|]. rewrite Forall_forall in *. intros y J. apply filter_In in J. apply F, J. Qed.
Lemma check_versions_ok normal packages local_name allowed me : In me packages -> underscored (pk_name me) = local_name -> (forall p, In p packages -> underscored (pk_name p) = local_name -> p = me) -> forall name versions,
  In (name, versions) (check_versions normal packages local_name allowed) <->
  (let group := filter (fun p => teqb (pk_name p) name) packages in
   ~ In name allowed /\ 2 <= List.length group /\ (forall p, In p group -> normal (pk_id me) (pk_id p) = true) /\ Permutation (map pk_version group) versions /\ StronglySorted le versions).
Proof.
  intros J E U name versions. unfold check_versions, local_id.
  rewrite (find_unique _ (sort_by pk_name packages) me); [|rewrite <- sort_perm; exact J|apply teqb_eq, E|intros y JY F; apply U; [rewrite <- sort_perm in JY; exact JY|apply teqb_eq, F]]. cbn [option_map].
  rewrite in_flat_map. set (S := filter (fun p => negb (existsb (teqb (pk_name p)) allowed)) (sort_by pk_name packages)).
  assert (SS : StronglySorted (fun a b => text_le (pk_name a) (pk_name b)) S) by (apply filter_sorted, sort_sorted).
  assert (GRP : filter (fun p => teqb (pk_name p) name) S = if existsb (teqb name) allowed then [] else filter (fun p => teqb (pk_name p) name) packages).
  { unfold S. rewrite filter_comm, sort_by_filter. destruct (existsb (teqb name) allowed) eqn:A; induction (filter (fun x => teqb (pk_name x) name) packages) as [|p l IH] eqn:Q in |- *; try reflexivity.
    - assert (Z : forall l, (forall x, In x l -> pk_name x = name) -> filter (fun p => negb (existsb (teqb (pk_name p)) allowed)) l = []).
      { induction l0 as [|y l0 IHl]; intros X; [reflexivity|]. cbn. rewrite (X y (or_introl eq_refl)), A. cbn. apply IHl. intros; apply X; right; assumption. }
      apply Z. intros x JX. rewrite <- Q in JX. apply filter_In in JX. apply teqb_eq, JX.
    - assert (Z : forall l, (forall x, In x l -> pk_name x = name) -> filter (fun p => negb (existsb (teqb (pk_name p)) allowed)) l = l).
      { induction l0 as [|y l0 IHl]; intros X; [reflexivity|]. cbn. rewrite (X y (or_introl eq_refl)), A. cbn. f_equal. apply IHl. intros; apply X; right; assumption. }
      apply Z. intros x JX. rewrite <- Q in JX. apply filter_In in JX. apply teqb_eq, JX. }
  assert (AL : existsb (teqb name) allowed = false <-> ~ In name allowed).
  { split; [intros X Y|intros X; apply not_true_is_false; intros Y; apply existsb_exists in Y; destruct Y as (z & JZ & Y); apply teqb_eq in Y; subst; contradiction]. assert (existsb (teqb name) allowed = true) by (apply existsb_exists; exists name; split; [exact Y|apply teqb_refl]). congruence. }
  split.
  - intros ([k g] & JC & H). apply (chunk_filter pk_name S SS) in JC. destruct JC as [G NE]. destruct (Nat.leb_spec (List.length g) 1) as [L|L]; [destruct H|]. destruct (forallb _ g) eqn:F; [|destruct H]. destruct H as [H|[]]. injection H as -> <-.
    rewrite GRP in G. destruct (existsb (teqb name) allowed) eqn:A; [congruence|]. cbn zeta. rewrite <- G. split; [apply AL; reflexivity|]. split; [lia|]. split; [intros p JP; rewrite forallb_forall in F; apply F, JP|]. split; [apply sort_versions_perm|apply sort_versions_sorted].
  - cbn zeta. intros (NA & L & F & P & SO). apply AL in NA. rewrite NA in GRP. exists (name, filter (fun p => teqb (pk_name p) name) packages). split.
    + apply (chunk_filter pk_name S SS). split; [symmetry; exact GRP|]. intros Q. rewrite Q in L. cbn in L. lia.
    + destruct (Nat.leb_spec (List.length (filter (fun p => teqb (pk_name p) name) packages)) 1); [lia|]. replace (forallb _ _) with true by (symmetry; apply forallb_forall; intros p JP; apply F, JP). left. f_equal.
      assert (PP : Permutation (sort_versions (map pk_version (filter (fun p => teqb (pk_name p) name) packages))) versions) by (rewrite <- sort_versions_perm; exact P).
      revert PP SO. generalize (sort_versions_sorted (map pk_version (filter (fun p => teqb (pk_name p) name) packages))). generalize (sort_versions (map pk_version (filter (fun p => teqb (pk_name p) name) packages))). clear.
      intros l SL P. revert versions P. induction SL as [|x l SL IH FL]; intros v P SV; [apply Permutation_nil in P; auto|]. destruct v as [|y v]; [apply Permutation_sym, Permutation_nil in P; discriminate P|]. inversion SV as [|? ? SV' FV]; subst. rewrite Forall_forall in FL, FV.
      assert (x = y). { assert (JX : In x (y :: v)) by (rewrite <- P; left; reflexivity). assert (JY : In y (x :: l)) by (rewrite P; left; reflexivity). destruct JX as [|JX]; [auto|]. destruct JY as [|JY]; [auto|]. specialize (FV _ JX). specialize (FL _ JY). lia. }
      subst y. f_equal. apply IH; auto. apply Permutation_cons_inv with x. exact P.
Qed.
