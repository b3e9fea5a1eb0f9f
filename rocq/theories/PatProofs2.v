(** Proofs about overlapping arms. *)
From Coq Require Import Lia Permutation.
From Verif Require Import RustFacts ConstProofs.
From Verif Require Export PatProofs.
Open Scope Z_scope.

Definition in_range (r : spanned) (v : Z) : Prop :=
  start r <= v /\ match stop_kind r with Included => v <= stop r | Excluded => v < stop r end.
Definition end_kind (r : spanned) : bound_kind := match stop_kind r with Excluded => EndExcluded | Included => EndIncluded end.
Definition S_ (r : spanned) : range_bound := (start r, Start, r).
Definition E_ (r : spanned) : range_bound := (stop r, end_kind r, r).
Lemma bounds_of_eq r : bounds_of r = [S_ r; E_ r].
Proof. reflexivity. Qed.

Lemma spanned_eqb_eq a b : spanned_eqb a b = true <-> a = b.
Proof.
  destruct a as [s x y k], b as [s' x' y' k']. unfold spanned_eqb. cbn. rewrite !andb_true_iff, Nat.eqb_eq, !Z.eqb_eq. split.
  - intros (((-> & ->) & ->) & K). destruct k, k'; try discriminate; reflexivity.
  - intros [= -> -> -> ->]. destruct k'; auto.
Qed.

(** *** The sort *)
Lemma bound_leb_total a b : bound_leb a b = false -> bound_leb b a = true.
Proof. destruct a as [[v k] r], b as [[w l] r']. unfold bound_leb. lia. Qed.
Lemma bound_leb_trans a b c : bound_leb a b = true -> bound_leb b c = true -> bound_leb a c = true.
Proof. destruct a as [[v k] r], b as [[w l] r'], c as [[x m] r'']. unfold bound_leb. lia. Qed.
Fixpoint sorted (l : list range_bound) : Prop :=
  match l with [] => True | x :: l => (forall y, In y l -> bound_leb x y = true) /\ sorted l end.
Lemma insert_in x l y : In y (insert x l) <-> y = x \/ In y l.
Proof. induction l as [|z l IH]; cbn; [intuition|]. destruct (bound_leb x z); cbn; [intuition|]. rewrite IH. intuition. Qed.
Lemma insert_sorted x l : sorted l -> sorted (insert x l).
Proof.
  induction l as [|z l IH]; cbn; [auto|]. intros [H1 H2]. destruct (bound_leb x z) eqn:E; cbn.
  - split; [|split; auto]. intros y [<-|Y]; [auto|]. eapply bound_leb_trans; eauto.
  - split; [|auto]. intros y Y. apply insert_in in Y as [-> | Y]; [now apply bound_leb_total|auto].
Qed.
Lemma sort_sorted l : sorted (sort_bounds l).
Proof. induction l; cbn; [auto|]. now apply insert_sorted. Qed.
Lemma insert_perm x l : Permutation (insert x l) (x :: l).
Proof. induction l as [|z l IH]; cbn; [auto|]. destruct (bound_leb x z); [auto|]. rewrite IH. apply perm_swap. Qed.
Lemma sort_perm l : Permutation (sort_bounds l) l.
Proof. induction l as [|x l IH]; cbn; [auto|]. rewrite insert_perm. now constructor. Qed.
Lemma sorted_app l1 l2 : sorted (l1 ++ l2) -> (forall x y, In x l1 -> In y l2 -> bound_leb x y = true) /\ sorted l2.
Proof.
  induction l1 as [|z l1 IH]; cbn; [intros H; split; [intros x y []|auto]|]. intros [H1 H2]. destruct (IH H2) as [A B]. split; [|auto].
  intros x y [<-|X] Y; [apply H1; apply in_app_iff; auto|auto].
Qed.

Lemma in_events rs e : In e (flat_map bounds_of rs) <-> exists r, In r rs /\ (e = S_ r \/ e = E_ r).
Proof. rewrite in_flat_map. split; intros (r & R & H); exists r; (split; [auto|]); rewrite bounds_of_eq in *; cbn in *; intuition. Qed.
Lemma SE_diff a b : S_ a <> E_ b.
Proof. unfold S_, E_, end_kind. destruct (stop_kind b); congruence. Qed.
Lemma S_inj a b : S_ a = S_ b -> a = b.
Proof. unfold S_. congruence. Qed.
Lemma E_inj a b : E_ a = E_ b -> a = b.
Proof. unfold E_. congruence. Qed.
Lemma events_nodup rs : NoDup rs -> NoDup (flat_map bounds_of rs).
Proof.
  induction 1 as [|r rs N ND IH]; [constructor|]. cbn [flat_map]. rewrite bounds_of_eq. cbn [app]. constructor; [|constructor; [|exact IH]].
  - intros [H|H]; [symmetry in H; now apply SE_diff in H|]. apply in_events in H as (r' & R & [H|H]); [apply S_inj in H; congruence|now apply SE_diff in H].
  - intros H. apply in_events in H as (r' & R & [H|H]); [symmetry in H; now apply SE_diff in H|apply E_inj in H; congruence].
Qed.

(** *** The sweep *)
Lemma sweep_S r l st : sweep (S_ r :: l) st = sweep l (r :: st).
Proof. reflexivity. Qed.
Lemma sweep_E r l st : sweep (E_ r :: l) st = match pop_until r st None with (Some o, _) => Some (r, o) | (None, st) => sweep l st end.
Proof. unfold E_, end_kind. destruct (stop_kind r); reflexivity. Qed.
Lemma pop_none r st : forall acc st', pop_until r st acc = (None, st') -> acc = None /\ (st = [] /\ st' = [] \/ st = r :: st').
Proof.
  induction st as [|x st IH]; intros acc st' H; cbn in H; [injection H as -> ->; auto|].
  destruct (spanned_eqb x r) eqn:E; [apply spanned_eqb_eq in E; subst; injection H as -> ->; auto|].
  apply IH in H as [H _]. discriminate.
Qed.
Lemma pop_some r st : In r st -> forall acc o st', pop_until r st acc = (Some o, st') ->
  (acc = Some o /\ st = r :: st') \/ exists u, st = u ++ o :: r :: st' /\ o <> r.
Proof.
  induction st as [|x st IH]; intros R acc o st' H; [destruct R|]. cbn in H.
  destruct (spanned_eqb x r) eqn:E; [apply spanned_eqb_eq in E; subst; injection H as -> ->; auto|].
  assert (NE : x <> r) by (intros ->; rewrite (proj2 (spanned_eqb_eq r r) eq_refl) in E; discriminate).
  destruct R as [->|R]; [contradiction|]. right. destruct (IH R _ _ _ H) as [([= ->] & ->)|(u & -> & N)]; [exists []; auto|exists (x :: u); auto].
Qed.
Lemma pop_passes a u b w acc : ~ In a u -> b <> a -> fst (pop_until a (u ++ b :: w) acc) <> None.
Proof.
  assert (P : forall st acc, acc <> None -> fst (pop_until a st acc) <> None).
  { induction st as [|x st IH]; intros ac A; cbn; [auto|]. destruct (spanned_eqb x a); [auto|]. apply IH. discriminate. }
  revert acc. induction u as [|x u IH]; intros acc N NE; cbn [app pop_until].
  - destruct (spanned_eqb b a) eqn:E; [apply spanned_eqb_eq in E; contradiction|]. apply P. discriminate.
  - destruct (spanned_eqb x a) eqn:E; [apply spanned_eqb_eq in E; exfalso; apply N; left; auto|]. apply IH; [intros X; apply N; right; auto|auto].
Qed.

Definition valid (r : spanned) : Prop := in_range r (start r).
Lemma valid_lt r : valid r -> bound_leb (E_ r) (S_ r) = false.
Proof. unfold valid, in_range, E_, S_, end_kind, bound_leb, kind_rank. destruct (stop_kind r); lia. Qed.
Lemma leb_in a b : bound_leb (S_ a) (E_ b) = true -> start b <= start a -> in_range b (start a).
Proof. unfold in_range, E_, S_, end_kind, bound_leb, kind_rank. destruct (stop_kind b); lia. Qed.

(** Stacks: later entries started earlier. *)
Fixpoint stacked (st : list spanned) : Prop :=
  match st with [] => True | x :: st => (forall y, In y st -> start y <= start x) /\ stacked st end.
Lemma stacked_app u st : stacked (u ++ st) -> stacked st.
Proof. induction u; cbn; [auto|]. intros [_ H]. auto. Qed.

Lemma sweep_sound rs : NoDup rs -> Forall valid rs -> forall l P st,
  sorted (P ++ l) -> Permutation (P ++ l) (flat_map bounds_of rs) -> stacked st ->
  (forall x, In x st -> In x rs /\ In (S_ x) P) ->
  (forall x, In x rs -> In (S_ x) P -> In (E_ x) l -> In x st) ->
  forall a b, sweep l st = Some (a, b) -> a <> b /\ In a rs /\ In b rs /\ in_range a (start b).
Proof.
  intros ND V. rewrite Forall_forall in V. induction l as [|e l IH]; intros P st SO PE ST I1 I2 a b H; [discriminate|].
  assert (NDL : NoDup (P ++ e :: l)) by (eapply Permutation_NoDup; [symmetry; exact PE|]; now apply events_nodup).
  assert (EV : exists r, In r rs /\ (e = S_ r \/ e = E_ r)).
  { apply in_events. eapply Permutation_in; [exact PE|]. apply in_app_iff. right. left. auto. }
  assert (EVP : (P ++ [e]) ++ l = P ++ e :: l) by (rewrite <- app_assoc; reflexivity).
  destruct EV as (r & R & [-> | ->]).
  - rewrite sweep_S in H. apply (IH (P ++ [S_ r]) (r :: st)); auto; try (rewrite EVP; auto).
    + split; [|exact ST]. intros y Y. destruct (I1 y Y) as [_ Y2]. apply sorted_app in SO as [SO _]. specialize (SO _ _ Y2 (or_introl eq_refl)).
      unfold bound_leb, S_ in SO. cbn in SO. lia.
    + intros x [<-|X]; [split; [auto|apply in_app_iff; right; left; auto]|]. destruct (I1 x X) as [X1 X2]. split; [auto|apply in_app_iff; auto].
    + intros x X XS XE. apply in_app_iff in XS as [XS|[XS|[]]]; [right; apply I2; [auto|auto|right; auto]|left; now apply S_inj].
  - rewrite sweep_E in H.
    assert (RS : In r st).
    { apply I2; [auto| |left; auto]. assert (S' : In (S_ r) (P ++ E_ r :: l)). { eapply Permutation_in; [symmetry; exact PE|]. apply in_events. eauto. }
      apply in_app_iff in S' as [S'|[S'|S']]; [auto|symmetry in S'; now apply SE_diff in S'|].
      apply sorted_app in SO as [_ [SO _]]. specialize (SO _ S'). rewrite (valid_lt r (V r R)) in SO. discriminate. }
    destruct (pop_until r st None) as [[o|] st'] eqn:PO.
    + injection H as <- <-. destruct (pop_some _ _ RS _ _ _ PO) as [(X & _)|(u & -> & NE)]; [discriminate|].
      assert (OI : In o (u ++ o :: r :: st')) by (apply in_app_iff; right; left; auto). destruct (I1 o OI) as [O1 O2].
      split; [auto|]. split; [auto|]. split; [auto|]. apply leb_in.
      * apply sorted_app in SO as [SO _]. apply SO; [auto|left; auto].
      * apply stacked_app in ST. destruct ST as [ST _]. apply ST. left. auto.
    + apply pop_none in PO as [_ [(-> & _)|E]]; [destruct RS|]. subst st.
      apply (IH (P ++ [E_ r]) st'); auto; try (rewrite EVP; auto).
      * apply ST.
      * intros x X. destruct (I1 x (or_intror X)) as [X1 X2]. split; [auto|apply in_app_iff; auto].
      * intros x X XS XE. apply in_app_iff in XS as [XS|[XS|[]]]; [|symmetry in XS; now apply SE_diff in XS].
        destruct (I2 x X XS (or_intror XE)) as [<-|Q]; [|auto]. exfalso. apply NoDup_remove_2 in NDL. apply NDL. apply in_app_iff. auto.
Qed.
Lemma overlapping_sound rs a b : NoDup rs -> Forall valid rs -> overlapping rs = Some (a, b) ->
  a <> b /\ In a rs /\ In b rs /\ in_range a (start b) /\ in_range b (start b).
Proof.
  intros ND V H. assert (K : a <> b /\ In a rs /\ In b rs /\ in_range a (start b)).
  { apply (sweep_sound rs ND V (sort_bounds (flat_map bounds_of rs)) [] []); auto; first [apply sort_sorted|apply sort_perm|exact Logic.I|intros x []|intros x _ []]. }
  destruct K as (A & B & C & D). rewrite Forall_forall in V. repeat split; try apply D; auto; apply (V b C).
Qed.

(** *** Completeness *)
Lemma sweep_none_app rs l1 : forall l2 st, (forall e, In e l1 -> In e (flat_map bounds_of rs)) -> sweep (l1 ++ l2) st = None ->
  forall a, In a st \/ In (S_ a) l1 -> ~ In (E_ a) l1 -> exists st', sweep l2 st' = None /\ In a st'.
Proof.
  induction l1 as [|e l1 IH]; intros l2 st EV H a A NE; [destruct A as [A|[]]; eauto|].
  cbn [app] in H. assert (EE : In e (flat_map bounds_of rs)) by (apply EV; left; auto). apply in_events in EE as (r & _ & [-> | ->]).
  - rewrite sweep_S in H. apply (IH l2 (r :: st)); auto; [intros e E; apply EV; right; auto| |intros X; apply NE; right; auto].
    destruct A as [A|[A|A]]; [left; right; auto|left; left; now apply S_inj|auto].
  - rewrite sweep_E in H. destruct (pop_until r st None) as [[o|] st'] eqn:PO; [discriminate|].
    apply (IH l2 st'); auto; [intros e E; apply EV; right; auto| |intros X; apply NE; right; auto].
    apply pop_none in PO as [_ PO]. destruct A as [A|[A|A]]; [|symmetry in A; now apply SE_diff in A|auto].
    destruct PO as [(-> & _)| ->]; [destruct A|]. destruct A as [->|A]; [exfalso; apply NE; left; auto|auto].
Qed.
Lemma sweep_none_above rs a b l1 : forall l2 st, (forall e, In e l1 -> In e (flat_map bounds_of rs)) -> sweep (l1 ++ l2) st = None ->
  (exists u w, st = u ++ b :: w /\ ~ In a u) -> ~ In (E_ b) l1 -> ~ In (S_ a) l1 ->
  exists u w, sweep l2 (u ++ b :: w) = None /\ ~ In a u.
Proof.
  induction l1 as [|e l1 IH]; intros l2 st EV H (u & w & -> & NA) NB NS; [eauto|].
  cbn [app] in H. assert (EE : In e (flat_map bounds_of rs)) by (apply EV; left; auto). apply in_events in EE as (r & _ & [-> | ->]).
  - rewrite sweep_S in H. eapply (IH l2 (r :: u ++ b :: w)); auto; [intros e E; apply EV; right; auto| |intros X; apply NB; right; auto|intros X; apply NS; right; auto].
    exists (r :: u), w. split; [reflexivity|]. intros [->|X]; [apply NS; left; auto|auto].
  - rewrite sweep_E in H. destruct (pop_until r (u ++ b :: w) None) as [[o|] st'] eqn:PO; [discriminate|].
    eapply (IH l2 st'); auto; [intros e E; apply EV; right; auto| |intros X; apply NB; right; auto|intros X; apply NS; right; auto].
    apply pop_none in PO as [_ [(PO & _)|PO]]; [destruct u; discriminate|]. destruct u as [|x u]; cbn in PO; injection PO as PO1 PO2; subst.
    + exfalso. apply NB. left. auto.
    + exists u, w. split; [reflexivity|]. intros X. apply NA. right. auto.
Qed.
Lemma before l e1 e2 : sorted l -> In e1 l -> In e2 l -> bound_leb e2 e1 = false -> exists l1 l2 l3, l = l1 ++ e1 :: l2 ++ e2 :: l3.
Proof.
  intros SO I1 I2 N. apply in_split in I1 as (l1 & l' & ->). apply in_app_iff in I2 as [I2|[I2|I2]].
  - apply sorted_app in SO as [SO _]. rewrite (SO e2 e1 I2 (or_introl eq_refl)) in N. discriminate.
  - subst. destruct e2 as [[v k] r]. unfold bound_leb in N. lia.
  - apply in_split in I2 as (l2 & l3 & ->). eauto.
Qed.
Lemma overlapping_complete rs a b : NoDup rs -> overlapping rs = None -> In a rs -> In b rs ->
  start a < start b -> in_range a (start b) -> (exists v, in_range b v /\ forall x, in_range a x -> x < v) -> False.
Proof.
  intros ND H A B SAB AB (v & V1 & V2). unfold overlapping in H. set (L := sort_bounds (flat_map bounds_of rs)) in *.
  assert (SO : sorted L) by apply sort_sorted. assert (PE : Permutation L (flat_map bounds_of rs)) by apply sort_perm.
  assert (NDL : NoDup L) by (eapply Permutation_NoDup; [symmetry; exact PE|]; now apply events_nodup).
  assert (IN : forall r, In r rs -> In (S_ r) L /\ In (E_ r) L).
  { intros r R. split; (eapply Permutation_in; [symmetry; exact PE|]; apply in_events; eauto). }
  assert (EV : forall e, In e L -> In e (flat_map bounds_of rs)) by (intros e E; eapply Permutation_in; eauto).
  destruct (IN a A) as [SA EA]. destruct (IN b B) as [SB EB].
  assert (O2 : bound_leb (E_ a) (S_ b) = false). { unfold in_range, E_, S_, end_kind, bound_leb, kind_rank in *. destruct (stop_kind a); lia. }
  assert (O1 : bound_leb (S_ b) (S_ a) = false) by (unfold S_, bound_leb; lia).
  assert (O3 : bound_leb (E_ b) (E_ a) = false).
  { assert (EA' : in_range a (match stop_kind a with Included => stop a | Excluded => stop a - 1 end)) by (unfold in_range in *; destruct (stop_kind a); lia).
    apply V2 in EA'. unfold in_range, E_, end_kind, bound_leb, kind_rank in *. destruct (stop_kind a), (stop_kind b); lia. }
  destruct (before L (S_ b) (E_ a) SO SB EA O2) as (l1 & l2 & l3 & EQ).
  rewrite EQ in H, NDL, SO, SA, EB, EV.
  assert (SA1 : In (S_ a) l1).
  { apply in_app_iff in SA as [SA|[SA|SA]]; [auto| |].
    - apply S_inj in SA. subst. lia.
    - apply sorted_app in SO as [_ [SO _]]. rewrite (SO _ SA) in O1. discriminate. }
  assert (NEA : ~ In (E_ a) l1 /\ ~ In (E_ a) l2).
  { rewrite app_comm_cons, app_assoc in NDL. apply NoDup_remove_2 in NDL. split; intros X; apply NDL; rewrite !in_app_iff; cbn; tauto. }
  assert (NSA : ~ In (S_ a) l2).
  { intros X. apply in_split in SA1 as (m1 & m2 & ->). rewrite <- app_assoc in NDL. cbn [app] in NDL. apply NoDup_remove_2 in NDL. apply NDL.
    rewrite !in_app_iff. right. right. right. rewrite in_app_iff. auto. }
  assert (NEB : ~ In (E_ b) l2).
  { intros X. rewrite app_comm_cons, app_assoc in SO. apply sorted_app in SO as [SO _]. specialize (SO (E_ b) (E_ a)).
    rewrite SO in O3; [discriminate| |left; auto]. apply in_app_iff. right. right. auto. }
  destruct (sweep_none_app rs l1 (S_ b :: l2 ++ E_ a :: l3) []) with (a := a) as (st & H1 & AST); auto; [intros e E; apply EV; apply in_app_iff; auto|apply NEA|].
  rewrite sweep_S in H1.
  destruct (sweep_none_above rs a b l2 (E_ a :: l3) (b :: st)) as (u & w & H2 & NU); auto.
  { intros e E. apply EV. rewrite !in_app_iff. right. right. rewrite in_app_iff. auto. }
  { exists [], st. split; [reflexivity|intros []]. }
  rewrite sweep_E in H2. assert (NAB : b <> a) by (intros ->; lia). pose proof (pop_passes a u b w None NU NAB) as PP.
  destruct (pop_until a (u ++ b :: w) None) as [[o|] st']; [discriminate|]. now apply PP.
Qed.

(** *** Arms *)

Lemma value_const p t c : option_map fullint_z (int_value p c (Some (TI t))) = const_value p t c.
Proof. destruct c as [u|b|f]; [|reflexivity|reflexivity]. cbn. destruct (ity_signed t) eqn:S'; cbn; [|reflexivity]. now rewrite sext_wrap. Qed.
Lemma min_const p t : const_value p t (new_numeric_min p t) = Some (imin p t).
Proof.
  unfold new_numeric_min, const_value. destruct (ity_signed t) eqn:S'; [|unfold imin; now rewrite S'].
  f_equal. unfold of_bits. pose proof (imin_le0 p t). rewrite <- (wrap_id p t (imin p t)) at 2 by (apply inr_iff; pose proof (imax_ge127 p t); lia).
  unfold wrap. rewrite S'. f_equal. pose proof (bits_le128 p t). pose proof (bits_pos p t).
  assert (E : 2 ^ 128 = 2 ^ (128 - bits p t) * 2 ^ bits p t) by (rewrite <- Z.pow_add_r by lia; f_equal; lia).
  rewrite (Z.mod_eq (imin p t) (2 ^ 128)) by lia. rewrite E at 1.
  set (q := imin p t / 2 ^ 128). set (w := 2 ^ bits p t) in *. set (h := 2 ^ (bits p t - 1)). set (g := 2 ^ (128 - bits p t)).
  replace (imin p t - g * w * q + h) with (imin p t + h + (- (g * q)) * w) by ring. apply Z_mod_plus_full.
Qed.
Lemma max_const p t : const_value p t (new_numeric_max p t) = Some (imax p t).
Proof.
  unfold new_numeric_max, const_value. destruct (ity_signed t) eqn:S'; [|auto]. f_equal. unfold of_bits. apply wrap_id.
  apply inr_iff. pose proof (imin_le0 p t). pose proof (imax_ge127 p t). lia.
Qed.
Definition const_ok (p : ptrw) (t : ity) (c : constant) : Prop := match c with CInt u => 0 <= u < 2 ^ bits p t | _ => False end.
Lemma const_ok_value p t c : const_ok p t c -> exists v, const_value p t c = Some v /\ inr p t v = true.
Proof.
  destruct c as [u|b|f]; [|intros []|intros []]. intros H. cbn in H. unfold const_value. eexists. split; [reflexivity|].
  destruct (ity_signed t) eqn:S'; [apply wrap_range|]. apply inr_iff. unfold imin, imax. rewrite S'. lia.
Qed.
Lemma arm_range_ok p t i a r : arm_ok p t a -> arm_range p t i a = Some r ->
  guarded a = false /\ span r = i /\ (forall v, arm_matches p t a v <-> in_range r v) /\ valid r.
Proof.
  intros OK H. unfold arm_range in H. destruct (guarded a) eqn:G; [discriminate|]. cbv zeta in H.
  unfold arm_ok, arm_matches in *. cbv zeta in OK. rewrite G in *.
  destruct (pattern a) as [l r' k|c|].
  - destruct OK as (OL & OR & NE).
    assert (L : exists lv, (match match l with Some c => c | None => Some (new_numeric_min p t) end with
       Some lc => const_value p t lc | None => None end) = Some lv /\ start r = lv).
    { destruct (match l with Some c => c | None => Some (new_numeric_min p t) end) as [lc|]; [|discriminate].
      destruct (match r' with Some c => c | None => Some (new_numeric_max p t) end) as [rc|]; [|discriminate].
      rewrite !value_const in H. destruct (const_value p t lc) as [lv|]; [|discriminate]. destruct (const_value p t rc) as [rv|]; [|discriminate].
      injection H as <-. eauto. }
    assert (R : exists rv, (match match r' with Some c => c | None => Some (new_numeric_max p t) end with
       Some rc => const_value p t rc | None => None end) = Some rv /\ stop r = rv /\ stop_kind r = k /\ span r = i).
    { destruct (match l with Some c => c | None => Some (new_numeric_min p t) end) as [lc|]; [|discriminate].
      destruct (match r' with Some c => c | None => Some (new_numeric_max p t) end) as [rc|]; [|discriminate].
      rewrite !value_const in H. destruct (const_value p t lc) as [lv|]; [|discriminate]. destruct (const_value p t rc) as [rv|]; [|discriminate].
      injection H as <-. cbn. eauto 6. }
    clear H. destruct L as (lv & L1 & L2), R as (rv & R1 & R2 & R3 & R4).
    assert (M : forall v, (inr p t v = true /\
         (match l with None => True | Some c => exists a0, match c with Some c0 => const_value p t c0 = Some a0 | None => False end /\ a0 <= v end) /\
         (match r' with None => True | Some c => exists b, match c with Some c0 => const_value p t c0 = Some b | None => False end /\ match k with Included => v <= b | Excluded => v < b end end)) <-> in_range r v).
    { intros v. unfold in_range. rewrite L2, R2, R3.
      assert (LB : inr p t v = true -> (match l with None => True | Some c => exists a0, match c with Some c0 => const_value p t c0 = Some a0 | None => False end /\ a0 <= v end) <-> lv <= v).
      { intros I. apply inr_iff in I. destruct l as [[c|]|]; [|discriminate|].
        - split; [intros (x & X & Y); congruence|intros Y; exists lv; auto].
        - rewrite min_const in L1. injection L1 as <-. lia. }
      assert (RB : inr p t v = true -> (match r' with None => True | Some c => exists b, match c with Some c0 => const_value p t c0 = Some b | None => False end /\ match k with Included => v <= b | Excluded => v < b end end) <-> match k with Included => v <= rv | Excluded => v < rv end).
      { intros I. apply inr_iff in I. destruct r' as [[c|]|]; [|discriminate|].
        - split; [intros (x & X & Y); rewrite R1 in X; injection X as <-; exact Y|intros Y; exists rv; auto].
        - rewrite OR. rewrite max_const in R1. injection R1 as <-. lia. }
      assert (LI : inr p t lv = true).
      { destruct l as [[c|]|]; [|discriminate|]; [apply const_ok_value in OL as (x & X & Y); congruence|].
        rewrite min_const in L1. injection L1 as <-. apply inr_iff. pose proof (imin_le0 p t). pose proof (imax_ge127 p t). lia. }
      assert (RI : inr p t rv = true).
      { destruct r' as [[c|]|]; [|discriminate|]; [apply const_ok_value in OR as (x & X & Y); congruence|].
        rewrite max_const in R1. injection R1 as <-. apply inr_iff. pose proof (imin_le0 p t). pose proof (imax_ge127 p t). lia. }
      apply inr_iff in LI, RI. split.
      - intros (I & A & B). split; [apply LB; auto|apply RB; auto].
      - intros (A & B). assert (I : inr p t v = true) by (apply inr_iff; destruct k; lia). split; [auto|]. split; [apply LB; auto|apply RB; auto]. }
    split; [auto|]. split; [auto|]. split; [intros v; rewrite <- M; intuition|].
    destruct NE as (z & Z1); [auto|split; intros ->; discriminate|]. destruct Z1 as (_ & Z1). apply M in Z1.
    unfold valid, in_range in *. destruct (stop_kind r); lia.
  - destruct c as [c|]; [|discriminate]. rewrite value_const in H. destruct (const_value p t c) as [v|] eqn:V; [|discriminate]. injection H as <-.
    destruct (const_ok_value p t c OK) as (v' & V' & I). assert (v' = v) by congruence. subst v'.
    split; [auto|]. split; [auto|]. split; [|unfold valid, in_range; cbn; lia]. intros z. unfold in_range. cbn. split.
    + intros (_ & _ & E). injection E as <-. lia.
    + intros E. assert (z = v) by lia. subst. auto.
  - discriminate.
Qed.
Lemma matches_range p t i a v : arm_matches p t a v -> exists r, arm_range p t i a = Some r.
Proof.
  unfold arm_matches, arm_range. intros (-> & _ & M). destruct (pattern a) as [l r k|[c|]|]; [|rewrite value_const, M; eauto|destruct M|destruct M].
  destruct M as (L & R). cbv zeta.
  assert (L' : exists lc lv, match l with Some c => c | None => Some (new_numeric_min p t) end = Some lc /\ const_value p t lc = Some lv).
  { destruct l as [[c|]|]; [|destruct L as (x & [] & _)|]; [destruct L as (x & X & _); eauto|]. do 2 eexists. split; [reflexivity|apply min_const]. }
  assert (R' : exists lc lv, match r with Some c => c | None => Some (new_numeric_max p t) end = Some lc /\ const_value p t lc = Some lv).
  { destruct r as [[c|]|]; [|destruct R as (x & [] & _)|]; [destruct R as (x & X & _); eauto|]. do 2 eexists. split; [reflexivity|apply max_const]. }
  destruct L' as (lc & lv & -> & L'), R' as (rc & rv & -> & R'). rewrite !value_const, L', R'. eauto.
Qed.
Lemma in_all_ranges p t r arms : forall i, In r (all_ranges p t i arms) <-> exists k a, nth_error arms k = Some a /\ arm_range p t (i + k) a = Some r.
Proof.
  induction arms as [|a arms IH]; intros i; cbn [all_ranges]; [split; [intros []|intros ([|k] & a & H & _); discriminate]|].
  assert (Q : In r (all_ranges p t (S i) arms) <-> exists k b, nth_error (a :: arms) (S k) = Some b /\ arm_range p t (i + S k) b = Some r).
  { rewrite IH. cbn [nth_error]. split; intros (k & b & H); exists k, b; [rewrite <- plus_n_Sm|rewrite <- plus_n_Sm in H]; exact H. }
  destruct (arm_range p t i a) as [x|] eqn:E.
  - cbn [In]. rewrite Q. split.
    + intros [<-|(k & b & H)]; [exists 0%nat, a; rewrite Nat.add_0_r; auto|eauto].
    + intros ([|k] & b & H1 & H2); [|right; eauto]. left. rewrite Nat.add_0_r in H2. injection H1 as <-. congruence.
  - rewrite Q. split; [intros (k & b & H); eauto|]. intros ([|k] & b & H1 & H2); [|eauto]. rewrite Nat.add_0_r in H2. injection H1 as <-. congruence.
Qed.
Lemma all_ranges_nodup p t arms : Forall (arm_ok p t) arms -> forall i, NoDup (all_ranges p t i arms).
Proof.
  induction 1 as [|a arms OK OKS IH]; intros i; cbn [all_ranges]; [constructor|]. destruct (arm_range p t i a) as [x|] eqn:E; [|auto]. constructor; [|auto].
  intros X. apply in_all_ranges in X as (k & b & H1 & H2). rewrite Forall_forall in OKS. apply nth_error_In in H1. apply OKS in H1.
  apply arm_range_ok in E as (_ & E & _); [|auto]. apply arm_range_ok in H2 as (_ & H2 & _); [|auto]. lia.
Qed.
Lemma overlapping_arms_correct p t arms i j : Forall (arm_ok p t) arms -> overlapping_arms p t arms = Some (i, j) ->
  i <> j /\ exists a b v, nth_error arms i = Some a /\ nth_error arms j = Some b /\ arm_matches p t a v /\ arm_matches p t b v.
Proof.
  intros OK H. unfold overlapping_arms in H. destruct (2 <=? length arms)%nat; [|discriminate].
  destruct (overlapping (all_ranges p t 0 arms)) as [[a b]|] eqn:O; [|discriminate]. injection H as <- <-.
  pose proof OK as OK'. rewrite Forall_forall in OK'.
  apply overlapping_sound in O as (NE & A & B & AV & BV); [|now apply all_ranges_nodup|].
  - apply in_all_ranges in A as (i & x & X1 & X2), B as (j & y & Y1 & Y2). cbn in X2, Y2.
    pose proof (OK' x (nth_error_In _ _ X1)) as OX. pose proof (OK' y (nth_error_In _ _ Y1)) as OY.
    pose proof (arm_range_ok _ _ _ _ _ OX X2) as (_ & SX & MX & _). pose proof (arm_range_ok _ _ _ _ _ OY Y2) as (_ & SY & MY & _).
    rewrite SX, SY. split.
    + intros ->. rewrite X1 in Y1. injection Y1 as ->. congruence.
    + exists x, y, (start b). rewrite MX, MY. auto.
  - apply Forall_forall. intros r R. apply in_all_ranges in R as (k & x & X1 & X2). eapply arm_range_ok; [|exact X2]. apply OK'. eapply nth_error_In; eauto.
Qed.
Lemma overlapping_arms_total p t arms i j a b : Forall (arm_ok p t) arms -> overlapping_arms p t arms = None ->
  nth_error arms i = Some a -> nth_error arms j = Some b ->
  ~ exists u v w, (arm_matches p t a u /\ ~ arm_matches p t b u) /\ (arm_matches p t a v /\ arm_matches p t b v) /\ (arm_matches p t b w /\ ~ arm_matches p t a w).
Proof.
  intros OK H A B (u & v & w & (AU & BU) & (AV & BV) & (BW & AW)).
  destruct (Nat.eq_dec i j) as [->|IJ]; [rewrite A in B; injection B as ->; contradiction|].
  unfold overlapping_arms in H. destruct (2 <=? length arms)%nat eqn:L.
  2:{ apply Nat.leb_gt in L. assert (i < length arms)%nat by (apply nth_error_Some; congruence). assert (j < length arms)%nat by (apply nth_error_Some; congruence). lia. }
  destruct (overlapping (all_ranges p t 0 arms)) as [[x y]|] eqn:O; [discriminate|]. clear H.
  destruct (matches_range p t i a v AV) as (ra & RA), (matches_range p t j b v BV) as (rb & RB).
  pose proof OK as OK'. rewrite Forall_forall in OK'.
  pose proof (arm_range_ok _ _ _ _ _ (OK' a (nth_error_In _ _ A)) RA) as (_ & SX & MX & _).
  pose proof (arm_range_ok _ _ _ _ _ (OK' b (nth_error_In _ _ B)) RB) as (_ & SY & MY & _).
  rewrite MX in *. rewrite MY in *.
  assert (IA : In ra (all_ranges p t 0 arms)) by (apply in_all_ranges; exists i, a; auto).
  assert (IB : In rb (all_ranges p t 0 arms)) by (apply in_all_ranges; exists j, b; auto).
  pose proof (all_ranges_nodup p t arms OK 0%nat) as ND.
  assert (C : u < v /\ v < w \/ w < v /\ v < u).
  { unfold in_range in *. destruct (stop_kind ra), (stop_kind rb); lia. }
  destruct C as [C|C].
  - apply (overlapping_complete _ ra rb ND O IA IB).
    + unfold in_range in *. destruct (stop_kind ra), (stop_kind rb); lia.
    + unfold in_range in *. destruct (stop_kind ra), (stop_kind rb); lia.
    + exists w. split; [auto|]. intros x. unfold in_range in *. destruct (stop_kind ra), (stop_kind rb); lia.
  - apply (overlapping_complete _ rb ra ND O IB IA).
    + unfold in_range in *. destruct (stop_kind ra), (stop_kind rb); lia.
    + unfold in_range in *. destruct (stop_kind ra), (stop_kind rb); lia.
    + exists u. split; [auto|]. intros x. unfold in_range in *. destruct (stop_kind ra), (stop_kind rb); lia.
Qed.
