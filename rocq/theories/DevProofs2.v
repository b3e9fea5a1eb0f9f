From Verif Require Import Text DevModel DevSpec DevProofs.
From Coq Require Import Lia Permutation Sorted Relations.

(** ** Work splitting *)
Definition cost (b : list text) : nat := fold_right (fun a n => List.length a + 16 + n) 0 b.
Lemma take_batch_ok limit : forall k args n b rest m over, take_batch limit k n args = (b, rest, m, over) ->
  args = b ++ rest /\ List.length b <= k /\ m = n + cost b /\
  (over = true -> limit < m /\ b <> [] /\ (n <= limit -> n + cost (removelast b) <= limit)) /\
  (over = false -> (n <= limit -> m <= limit) /\ (List.length b = k \/ rest = [])).
Proof.
  induction k as [|k IH]; intros args n b rest m over H.
  - cbn in H. destruct args; injection H as <- <- <- <-; cbn;
      (split; [reflexivity|]; split; [lia|]; split; [lia|]; split; [discriminate|]; intros _; split; [lia|now left]).
  - destruct args as [|a args].
    + cbn in H. injection H as <- <- <- <-. cbn. split; [reflexivity|]; split; [lia|]; split; [lia|]; split; [discriminate|].
      intros _; split; [lia|now right].
    + cbn [take_batch] in H. destruct (Nat.ltb_spec limit (n + (List.length a + 8) + 8)) as [L|L].
      * injection H as <- <- <- <-. cbn. split; [reflexivity|]; split; [lia|]; split; [lia|]; split; [|discriminate].
        intros _. split; [lia|]. split; [discriminate|]. lia.
      * destruct (take_batch limit k (n + (List.length a + 8) + 8) args) as [[[b' rest'] m'] over'] eqn:E.
        injection H as <- <- <- <-. destruct (IH _ _ _ _ _ _ E) as (-> & Lb & -> & O & NO).
        split; [reflexivity|]. split; [cbn [List.length]; lia|]. split; [change (cost (a :: b')) with (List.length a + 16 + cost b'); lia|]. split.
        -- intros Ov. destruct (O Ov) as (O1 & O2 & O3). split; [lia|]. split; [discriminate|].
           intros _. destruct b' as [|x b']; [congruence|]. specialize (O3 L).
           change (removelast (a :: x :: b')) with (a :: removelast (x :: b')).
           change (cost (a :: removelast (x :: b'))) with (List.length a + 16 + cost (removelast (x :: b'))). lia.
        -- intros Ov. destruct (NO Ov) as (N1 & N2). split; [intros _; now apply N1|]. destruct N2; [left; cbn; lia|now right].
Qed.
Lemma cost_zero b : cost b = 0 <-> b = [].
Proof. destruct b; cbn; split; try reflexivity; try lia; discriminate. Qed.

Lemma ceil_div_ge n t : 1 <= t -> n <= ceil_div n t * t.
Proof.
  intros H. unfold ceil_div. assert (E := Nat.div_mod n t ltac:(lia)).
  destruct (Nat.eqb_spec (n mod t) 0); [rewrite Nat.add_0_r; lia|].
  assert (B := Nat.mod_upper_bound n t ltac:(lia)). rewrite Nat.mul_add_distr_r, Nat.mul_1_l. lia.
Qed.
Lemma ceil_div_pos n t : 1 <= t -> 1 <= n -> 1 <= ceil_div n t.
Proof. intros H1 H2. assert (G := ceil_div_ge n t H1). destruct (ceil_div n t); cbn in *; lia. Qed.

Section Split.
Variables limit m : nat.
Definition good (st : split_state) : Prop :=
  1 <= s_threads st /\ (1 <= s_size st \/ s_args st = []) /\ List.length (s_args st) <= s_size st * s_threads st.
Definition overlong (b : list text) : bool := limit <? cost b.
Definition left_after (threads n : nat) : nat := Nat.max 1 (threads - n).
Lemma start_good threads args : 1 <= threads -> good (split_start m threads args).
Proof.
  intros H. unfold good, split_start; cbn. split; [assumption|]. assert (G := ceil_div_ge (List.length args) threads H).
  split.
  - destruct args as [|a args]; [now right|left]. assert (1 <= ceil_div (List.length (a :: args)) threads) by (apply ceil_div_pos; cbn; lia). lia.
  - etransitivity; [apply G|]. apply Nat.mul_le_mono_r. lia.
Qed.
Lemma next_ok st o st' : good st -> split_next limit m st = (o, st') ->
  good st' /\ s_threads st' = left_after (s_threads st) 1 /\
  match o with
  | None => s_args st = []
  | Some b =>
      s_args st = b ++ s_args st' /\ b <> [] /\ List.length b <= s_size st /\ cost (removelast b) <= limit /\
      (overlong b = false -> s_size st' = s_size st /\ (List.length b = s_size st \/ s_args st' = [])) /\
      (overlong b = true -> s_size st' = Nat.max (ceil_div (List.length (s_args st')) (s_threads st')) m)
  end.
Proof.
  intros (T & Z & J) H. unfold split_next in H.
  destruct (take_batch limit (s_size st) 0 (s_args st)) as [[[b rest] n] over] eqn:E.
  destruct (take_batch_ok _ _ _ _ _ _ _ _ E) as (A & L & N & O & NO). cbn in N. subst n.
  set (thr := if 1 <? s_threads st then s_threads st - 1 else s_threads st) in *.
  assert (TH : thr = left_after (s_threads st) 1).
  { unfold thr, left_after. destruct (Nat.ltb_spec 1 (s_threads st)); lia. }
  assert (T1 : 1 <= thr) by (rewrite TH; unfold left_after; lia).
  injection H as Ho <-. cbn [s_threads s_args s_size].
  assert (OV : overlong b = over).
  { unfold overlong. destruct over.
    - destruct (O eq_refl) as (X & _). now apply Nat.ltb_lt.
    - destruct (NO eq_refl) as (X & _). apply Nat.ltb_ge. apply X. lia. }
  assert (LEN : List.length (s_args st) = List.length b + List.length rest) by (rewrite A; apply app_length).
  assert (G : good {| s_args := rest; s_size := if over then Nat.max (ceil_div (List.length rest) thr) m else s_size st; s_threads := thr |}).
  { unfold good; cbn [s_threads s_args s_size]. split; [assumption|]. split.
    - destruct rest as [|x rest]; [now right|left]. destruct over.
      + assert (1 <= ceil_div (List.length (x :: rest)) thr) by (apply ceil_div_pos; cbn; lia). lia.
      + destruct Z as [Z|Z]; [assumption|]. rewrite Z in A. destruct b; discriminate.
    - destruct over.
      + assert (G := ceil_div_ge (List.length rest) thr T1). etransitivity; [apply G|]. apply Nat.mul_le_mono_r. lia.
      + destruct (NO eq_refl) as (_ & [F|F]).
        * unfold thr. destruct (Nat.ltb_spec 1 (s_threads st)) as [X|X].
          -- rewrite Nat.mul_sub_distr_l. lia.
          -- assert (s_threads st = 1) as Y by lia. rewrite Y in *. lia.
        * rewrite F. cbn. lia. }
  split; [exact G|]. split; [exact TH|]. destruct (Nat.eqb_spec (cost b) 0) as [C|C]; subst o.
  - apply cost_zero in C. subst b. cbn in A. destruct over.
    + destruct (O eq_refl) as (_ & X & _). congruence.
    + destruct (NO eq_refl) as (_ & [F|F]).
      * cbn in F. destruct Z as [Z|Z]; [lia|assumption].
      * now rewrite A.
  - split; [assumption|]. split; [intros ->; now apply C|]. split; [assumption|].
    split; [|split].
    + destruct over.
      * destruct (O eq_refl) as (_ & _ & X). apply X. lia.
      * destruct (NO eq_refl) as (X & _). specialize (X ltac:(lia)).
        assert (Y : cost (removelast b) <= cost b); [|lia]. clear. induction b as [|a b IH]; [cbn; lia|].
        destruct b; [cbn; lia|]. change (removelast (a :: t :: b)) with (a :: removelast (t :: b)).
        change (cost (a :: removelast (t :: b))) with (List.length a + 16 + cost (removelast (t :: b))).
        change (cost (a :: t :: b)) with (List.length a + 16 + cost (t :: b)). lia.
    + intros F. rewrite OV in F. rewrite F in *. split; [reflexivity|]. now destruct (NO eq_refl).
    + intros F. rewrite OV in F. now rewrite F.
Qed.
Lemma iterates_exists : forall n st, good st -> List.length (s_args st) <= n -> exists bs, iterates limit m st bs.
Proof.
  induction n as [|n IH]; intros st G L; destruct (split_next limit m st) as [[b|] st'] eqn:E;
    destruct (next_ok _ _ _ G E) as (G' & _ & X).
  - destruct X as (A & NE & _). rewrite A, app_length in L. destruct b; [congruence|cbn in L; lia].
  - exists []. now apply it_end with st'.
  - destruct X as (A & NE & _). rewrite A, app_length in L. destruct (IH st' G') as [bs I].
    + destruct b; [congruence|cbn in L; lia].
    + exists (b :: bs). now apply it_next with st'.
  - exists []. now apply it_end with st'.
Qed.
Lemma iterates_det st bs : iterates limit m st bs -> forall bs', iterates limit m st bs' -> bs = bs'.
Proof.
  induction 1 as [st st' E|st st' b bs E I IH]; intros bs' I'; inversion I'; subst; try congruence.
  match goal with H : split_next limit m st = (Some ?x, ?y) |- _ = ?x :: _ => rewrite E in H; injection H as -> -> end.
  f_equal. now apply IH.
Qed.
Lemma iterates_concat st bs : iterates limit m st bs -> good st -> List.concat bs = s_args st.
Proof.
  induction 1 as [st st' E|st st' b bs E I IH]; intros G; destruct (next_ok _ _ _ G E) as (G' & _ & X).
  - now rewrite X.
  - destruct X as (-> & _). cbn. now rewrite IH.
Qed.
Lemma iterates_nonempty st bs : iterates limit m st bs -> good st -> Forall (fun b => b <> [] /\ cost (removelast b) <= limit) bs.
Proof.
  induction 1 as [st st' E|st st' b bs E I IH]; intros G; destruct (next_ok _ _ _ G E) as (G' & _ & X); constructor; auto.
  now destruct X as (_ & ? & _ & ? & _).
Qed.
Lemma iterates_short st bs : iterates limit m st bs -> good st -> forall pre b post, bs = pre ++ b :: post ->
  Forall (fun x => overlong x = false) pre -> List.length b <= s_size st.
Proof.
  induction 1 as [st st' E|st st' b0 bs E I IH]; intros G pre b post H F; [destruct pre; discriminate|].
  destruct (next_ok _ _ _ G E) as (G' & _ & A & NE & L & _ & S & _).
  destruct pre as [|p pre]; cbn in H; injection H as -> H; [assumption|].
  inversion F as [|? ? F1 F2]; subst. destruct (S F1) as [<- _]. now apply (IH G' pre b post).
Qed.
Lemma iterates_split st p : forall q, iterates limit m st (p ++ q) -> good st -> exists st', good st' /\ iterates limit m st' q /\
  s_threads st' = left_after (s_threads st) (List.length p) /\
  forall p1 o, p = p1 ++ [o] -> overlong o = true ->
    s_size st' = Nat.max (ceil_div (List.length (List.concat q)) (left_after (s_threads st) (List.length p))) m.
Proof.
  revert st. induction p as [|b p IH]; intros st q I G.
  - exists st. split; [assumption|]. split; [exact I|]. split.
    + unfold left_after. destruct G as (G & _). cbn [List.length]. lia.
    + intros p1 o H. destruct p1; discriminate.
  - inversion I as [|? st1 ? ? E I']; subst. destruct (next_ok _ _ _ G E) as (G' & T & A & NE & L & _ & _ & SZ).
    destruct p as [|b' p].
    + exists st1. split; [assumption|]. split; [assumption|]. split; [assumption|].
      intros p1 o H O. destruct p1 as [|x p1]; [|destruct p1; discriminate]. injection H as ->.
      rewrite (SZ O). rewrite T. cbn [app] in I'. rewrite (iterates_concat _ _ I' G'). reflexivity.
    + destruct (IH st1 q I' G') as (st' & G'' & I'' & T' & S').
      exists st'. split; [assumption|]. split; [assumption|].
      assert (TT : forall k, left_after (left_after (s_threads st) 1) k = left_after (s_threads st) (S k)).
      { intros k. unfold left_after. lia. }
      rewrite T, TT in T'.
      split; [exact T'|]. intros p1 o H O. destruct p1 as [|x p1]; [discriminate|]. cbn in H. injection H as _ H.
      specialize (S' p1 o H O). rewrite T, TT in S'. exact S'.
Qed.
Lemma iterates_count st bs : iterates limit m st bs -> good st ->
  List.length bs <= s_threads st + List.length (filter overlong bs).
Proof.
  induction 1 as [st st' E|st st' b bs E I IH]; intros G; [cbn; lia|].
  destruct (next_ok _ _ _ G E) as (G' & T & A & NE & L & _ & S & _). specialize (IH G'). cbn [filter].
  destruct (overlong b) eqn:O; cbn [List.length].
  - rewrite T in IH. unfold left_after in IH. destruct G as (G & _). lia.
  - destruct (Nat.eq_dec (s_threads st) 1) as [T1|T1].
    + destruct (S eq_refl) as [_ D]. destruct G as (_ & Z & J). rewrite T1, Nat.mul_1_r in J.
      assert (R : s_args st' = []).
      { destruct D as [D|D]; [|assumption]. rewrite A, app_length in J. destruct (s_args st'); [reflexivity|cbn in J; lia]. }
      destruct bs as [|b' bs]; [cbn; lia|]. exfalso. inversion I as [|? st2 ? ? E2]; subst.
      destruct (next_ok _ _ _ G' E2) as (_ & _ & A2 & NE2 & _). rewrite R in A2. destruct b'; [congruence|discriminate].
    + rewrite T in IH. unfold left_after in IH. destruct G as (G & _). lia.
Qed.
End Split.

(** ** Grouping *)
Lemma slice_groups_ok (A : Type) (f : A -> list A -> nat) : (forall h t, f h t <= List.length t) ->
  forall fuel l, List.length l <= fuel ->
  List.concat (slice_groups f fuel l) = l /\ Forall (fun g => g <> []) (slice_groups f fuel l).
Proof.
  intros B. induction fuel as [|fuel IH]; intros l L.
  - destruct l; [|cbn in L; lia]. split; [reflexivity|constructor].
  - destruct l as [|h t]; [split; [reflexivity|constructor]|]. cbn [slice_groups].
    specialize (B h t). destruct (Nat.leb_spec (f h t + 1) (List.length (h :: t))) as [X|X]; [|cbn in X; lia].
    destruct (IH (skipn (f h t + 1) (h :: t))) as [I1 I2].
    + rewrite skipn_length. cbn [List.length] in *. lia.
    + split.
      * cbn [List.concat]. rewrite I1. apply firstn_skipn.
      * constructor; [|assumption]. rewrite Nat.add_comm. discriminate.
Qed.
(** With the split index used by the callers (generate.rs:138-140, parse.rs:291-294): the number of
    following elements with the same key. *)
Fixpoint same_count {A K : Type} (eqb : K -> K -> bool) (key : A -> K) (k : K) (l : list A) : nat :=
  match l with [] => 0 | x :: r => if eqb (key x) k then S (same_count eqb key k r) else 0 end.
Lemma same_count_le (A K : Type) eqb (key : A -> K) k l : same_count eqb key k l <= List.length l.
Proof. induction l as [|x l IH]; cbn; [lia|]. destruct (eqb _ _); lia. Qed.
Lemma same_count_firstn (A K : Type) eqb (key : A -> K) k l :
  Forall (fun x => eqb (key x) k = true) (firstn (same_count eqb key k l) l).
Proof. induction l as [|x l IH]; cbn; [constructor|]. destruct (eqb (key x) k) eqn:E; cbn; constructor; assumption. Qed.
Lemma same_count_next (A K : Type) eqb (key : A -> K) k l x r :
  skipn (same_count eqb key k l) l = x :: r -> eqb (key x) k = false.
Proof.
  induction l as [|y l IH]; cbn; [discriminate|]. destruct (eqb (key y) k) eqn:E; [apply IH|].
  intros H. injection H as -> _. assumption.
Qed.
Definition by_key {A K : Type} (eqb : K -> K -> bool) (key : A -> K) : A -> list A -> nat :=
  fun h t => same_count eqb key (key h) t.
Lemma slice_groups_by_key (A K : Type) (eqb : K -> K -> bool) (key : A -> K) :
  (forall a b, eqb a b = true <-> a = b) ->
  forall fuel l, List.length l <= fuel ->
  let gs := slice_groups (by_key eqb key) fuel l in
  (forall g x y, In g gs -> In x g -> In y g -> key x = key y) /\
  (forall g1 g2 u v x y, gs = u ++ g1 :: g2 :: v -> In x g1 -> In y g2 -> key x <> key y).
Proof.
  intros EQ. induction fuel as [|fuel IH]; intros l L; cbn zeta.
  - destruct l; [|cbn in L; lia]. cbn. split; [intros ? ? ? []|]. intros ? ? u. destruct u; discriminate.
  - destruct l as [|h t]; [cbn; split; [intros ? ? ? []|]; intros ? ? u; destruct u; discriminate|]. cbn [slice_groups].
    assert (B := same_count_le A K eqb key (key h) t).
    change (by_key eqb key h t) with (same_count eqb key (key h) t).
    set (n := same_count eqb key (key h) t) in *.
    destruct (Nat.leb_spec (n + 1) (List.length (h :: t))) as [X|X]; [|cbn in X; lia].
    rewrite Nat.add_comm. cbn [Nat.add firstn skipn].
    destruct (IH (skipn n t)) as [I1 I2]; [rewrite skipn_length; cbn in L; lia|].
    assert (HD : forall x, In x (h :: firstn n t) -> key x = key h).
    { intros x [->|Hx]; [reflexivity|]. assert (F := same_count_firstn A K eqb key (key h) t). fold n in F.
      rewrite Forall_forall in F. apply EQ. now apply F. }
    split.
    + intros g x y [<-|Hg] Hx Hy; [|now apply (I1 g)]. now rewrite (HD x Hx), (HD y Hy).
    + intros g1 g2 u v x y E Hx Hy. destruct u as [|g0 u].
      * cbn in E. injection E as <- E. rewrite (HD x Hx).
        (* the head of the next group is the first element with another key *)
        destruct (skipn n t) as [|z r] eqn:SK; [destruct fuel; discriminate E|].
        assert (NZ := same_count_next A K eqb key (key h) t z r SK).
        assert (In z g2).
        { destruct fuel; [discriminate|]. cbn [slice_groups] in E. destruct (_ <=? _) in E; [|discriminate].
          injection E as <- _. rewrite Nat.add_comm. now left. }
        assert (key z = key y) as <- by (apply (I1 g2); [rewrite E; now left|assumption|assumption]).
        intros K1. symmetry in K1. apply EQ in K1. congruence.
      * cbn in E. injection E as _ E. now apply (I2 g1 g2 u v).
Qed.

(** ** The lint table *)
Lemma lint_name_eqb_eq a b : lint_name_eqb a b = true <-> a = b.
Proof.
  unfold lint_name_eqb, lint_tool_eqb. destruct a as [[] a], b as [[] b]; cbn; rewrite ?String.eqb_eq; split; try congruence; try discriminate.
Qed.
Lemma upd_same t n l : upd t n l n = Some l.
Proof. unfold upd. now rewrite String.eqb_refl. Qed.
Lemma upd_other t n l m : m <> n -> upd t n l m = t m.
Proof. intros H. unfold upd. apply String.eqb_neq in H. now rewrite H. Qed.
Lemma retarget_active t o n m f : update_rename_targets t o n m = Some (Active f) <-> t m = Some (Active f).
Proof. unfold update_rename_targets. destruct (t m) as [[]|]; split; congruence. Qed.
Lemma retarget_none t o n m : update_rename_targets t o n m = None <-> t m = None.
Proof. unfold update_rename_targets. destruct (t m) as [[]|]; split; congruence. Qed.
Lemma retarget_renamed t o n m x : update_rename_targets t o n m = Some (Renamed x) ->
  exists y, t m = Some (Renamed y) /\ ((y = clippy_lint o /\ x = n) \/ (y <> clippy_lint o /\ x = y)).
Proof.
  unfold update_rename_targets. destruct (t m) as [[| |y]|]; try discriminate. intros [= <-]. exists y. split; [reflexivity|].
  destruct (lint_name_eqb y (clippy_lint o)) eqn:E.
  - apply lint_name_eqb_eq in E. now left.
  - right. split; [|reflexivity]. intros ->. assert (X := proj2 (lint_name_eqb_eq (clippy_lint o) (clippy_lint o)) eq_refl). congruence.
Qed.
Lemma retarget_other t o n m : (forall x, t m <> Some (Renamed x)) -> update_rename_targets t o n m = t m.
Proof. unfold update_rename_targets. intros H. destruct (t m) as [[| |y]|]; try reflexivity. now destruct (H y). Qed.

(** No recorded rename leads to a name that is not in the table or has itself been renamed. *)
Definition unchained (t : table) : Prop :=
  forall a n, t a = Some (Renamed (clippy_lint n)) -> (exists f, t n = Some (Active f)) \/ t n = Some Deprecated.
(** … to a name that is not a current lint. *)
Definition resolved (t : table) : Prop :=
  forall a n, t a = Some (Renamed (clippy_lint n)) -> exists f, t n = Some (Active f).

Lemma rename_effect t old new mv f : t old = Some (Active f) -> t new = None ->
  rename t old new mv = (upd (upd (update_rename_targets t old (clippy_lint new)) old (Renamed (clippy_lint new))) new (Active (mv f)), true).
Proof.
  intros A N. unfold rename. rewrite (proj2 (retarget_active _ _ _ _ _) A).
  assert (new <> old) by congruence. rewrite upd_other by assumption. rewrite (proj2 (retarget_none _ _ _ _) N). reflexivity.
Qed.
Lemma rename_same t old new mv : (forall f, t old = Some (Active f) -> t new <> None) -> fst (rename t old new mv) = t.
Proof.
  intros H. unfold rename. destruct (update_rename_targets t old (clippy_lint new) old) as [[f| |]|] eqn:E; try reflexivity.
  apply retarget_active in E. specialize (H f E). destruct (String.eqb_spec new old) as [->|NE].
  - now rewrite upd_same.
  - rewrite upd_other by assumption. destruct (update_rename_targets _ _ _ new) eqn:X; [reflexivity|].
    apply retarget_none in X. congruence.
Qed.

Lemma step_inv (P : table -> Prop) t c :
  P t ->
  (forall n f, t n = Some (Active f) -> c = CDeprecate n -> P (upd t n Deprecated)) ->
  (forall o n f, t o = Some (Active f) -> P (upd (update_rename_targets t o (rustc_lint n)) o (Renamed (rustc_lint n)))) ->
  (forall o n f mv, t o = Some (Active f) -> t n = None ->
     P (upd (upd (update_rename_targets t o (clippy_lint n)) o (Renamed (clippy_lint n))) n (Active (mv f)))) ->
  (forall n f, t n = None -> P (upd t n (Active f))) ->
  P (fst (run_command t c)).
Proof.
  intros H0 H1 H2 H3 H4. destruct c as [n|o n|o n mv|n f]; cbn [run_command].
  - unfold deprecate. destruct (t n) as [[f| |]|] eqn:E; cbn; try assumption. now apply (H1 n f).
  - unfold uplift. destruct (update_rename_targets t o (rustc_lint n) o) as [[f| |]|] eqn:E; cbn; try assumption.
    apply retarget_active in E. now apply (H2 o n f).
  - destruct (t o) as [[f| |]|] eqn:E; try (rewrite rename_same; [assumption|congruence]).
    destruct (t n) eqn:F; [rewrite rename_same; [assumption|congruence]|].
    rewrite (rename_effect _ _ _ _ f) by assumption. cbn. now apply H3.
  - unfold add_lint. destruct (t n) eqn:E; cbn; [assumption|]. now apply H4.
Qed.

Ltac table_cases :=
  repeat match goal with
  | H : context [upd _ ?n _ ?m] |- _ =>
      destruct (String.eqb_spec m n) as [->|]; [rewrite upd_same in H|rewrite upd_other in H by assumption]
  | |- context [upd _ ?n _ ?m] =>
      destruct (String.eqb_spec m n) as [->|]; [rewrite ?upd_same|rewrite ?upd_other by assumption]
  end.
Lemma retarget_keeps t o x n : (exists f, t n = Some (Active f)) \/ t n = Some Deprecated -> 
  (exists f, update_rename_targets t o x n = Some (Active f)) \/ update_rename_targets t o x n = Some Deprecated.
Proof.
  intros [[f H]|H]; [left; exists f|right]; (rewrite retarget_other; [assumption|congruence]).
Qed.
Lemma unchained_step t c : unchained t -> unchained (fst (run_command t c)).
Proof.
  intros U. apply (step_inv unchained); [assumption| | | |].
  - intros n f A _ a m H. table_cases; try discriminate; try (now right); now apply U in H.
  - intros o n f A a m H. table_cases; try discriminate.
    + exfalso. apply retarget_renamed in H. destruct H as (y & Y & [[-> E]|[NE E]]); [discriminate|subst y].
      now destruct NE.
    + apply retarget_renamed in H. destruct H as (y & Y & [[-> E]|[NE E]]); [discriminate|subst y].
      apply retarget_keeps. now apply U in Y.
  - intros o n f mv A N a m H. table_cases; try discriminate.
    + left. eexists. reflexivity.
    + unfold clippy_lint in *; congruence.
    + unfold clippy_lint in *; congruence.
    + left. eexists. reflexivity.
    + exfalso. apply retarget_renamed in H. destruct H as (y & Y & [[-> E]|[NE E]]); [unfold clippy_lint in *; congruence|subst y]. now destruct NE.
    + apply retarget_renamed in H. destruct H as (y & Y & [[-> E]|[NE E]]); [unfold clippy_lint in *; congruence|subst y].
      apply retarget_keeps. now apply U in Y.
  - intros n f N a m H. table_cases; try discriminate; [left; now exists f|]. now apply U in H.
Qed.
Lemma unchained_history h t : unchained t -> unchained (run_history t h).
Proof. revert t. induction h as [|c h IH]; intros t U; [assumption|]. cbn. apply IH. now apply unchained_step. Qed.
Lemma resolved_step t c : resolved t ->
  (forall n, c = CDeprecate n -> forall a, t a <> Some (Renamed (clippy_lint n))) -> resolved (fst (run_command t c)).
Proof.
  intros U D. apply (step_inv resolved); [assumption| | | |].
  - intros n f A E a m H. table_cases; try discriminate; [now apply (D n E) in H|]. now apply U in H.
  - intros o n f A a m H. table_cases; try discriminate.
    + exfalso. apply retarget_renamed in H. destruct H as (y & Y & [[-> E]|[NE E]]); [discriminate|subst y]. now destruct NE.
    + apply retarget_renamed in H. destruct H as (y & Y & [[-> E]|[NE E]]); [discriminate|subst y].
      apply U in Y. destruct Y as [g Y]. exists g. now apply retarget_active.
  - intros o n f mv A N a m H. table_cases; try discriminate.
    + eexists. reflexivity.
    + unfold clippy_lint in *; congruence.
    + unfold clippy_lint in *; congruence.
    + eexists. reflexivity.
    + exfalso. apply retarget_renamed in H. destruct H as (y & Y & [[-> E]|[NE E]]); [unfold clippy_lint in *; congruence|subst y]. now destruct NE.
    + apply retarget_renamed in H. destruct H as (y & Y & [[-> E]|[NE E]]); [unfold clippy_lint in *; congruence|subst y].
      apply U in Y. destruct Y as [g Y]. exists g. now apply retarget_active.
  - intros n f N a m H. table_cases; try discriminate; [now exists f|]. now apply U in H.
Qed.

(** ** Test files *)
Lemma collect_owns names n e : In n names ->
  starts n e && negb (existsb (fun p => starts p e) (ignored_prefixes n names)) = true <-> owns names n e.
Proof.
  intros IN. rewrite andb_true_iff, negb_true_iff, starts_iff. unfold owns. split.
  - intros [H1 H2]. split; [assumption|]. intros m r Hm He.
    destruct (Nat.le_gt_cases (List.length m) (List.length n)) as [|G]; [assumption|exfalso].
    assert (X : existsb (fun p => starts p e) (ignored_prefixes n names) = true).
    { apply existsb_exists. exists m. split; [|apply starts_iff; now exists r].
      apply filter_In. split; [assumption|]. apply andb_true_iff. split; [now apply Nat.ltb_lt|].
      apply starts_iff. destruct H1 as [r' H1].
      exists (skipn (List.length n) m). assert (E : n = firstn (List.length n) (m ++ r)) by (rewrite <- He, H1; symmetry; now apply firstn_len).
      rewrite firstn_app in E. replace (List.length n - List.length m) with 0 in E by lia. rewrite firstn_O, app_nil_r in E.
      rewrite E at 1. symmetry. apply firstn_skipn. }
    congruence.
  - intros [H1 H2]. split; [assumption|].
    destruct (existsb _ _) eqn:E; [|reflexivity]. apply existsb_exists in E. destruct E as (m & Hm & Sm).
    apply filter_In in Hm. destruct Hm as [Hm Hl]. apply andb_true_iff in Hl. destruct Hl as [Hl _]. apply Nat.ltb_lt in Hl.
    apply starts_iff in Sm. destruct Sm as [r ->]. specialize (H2 m r Hm eq_refl). lia.
Qed.
Lemma ui_paths_ok names : ui_paths names = map (fun n => tx "tests/ui/" ++ n) names.
Proof.
  unfold ui_paths. induction names as [|n names IH]; [reflexivity|]. cbn [buffer_paths map]. f_equal.
  rewrite firstn_len by reflexivity. exact IH.
Qed.
