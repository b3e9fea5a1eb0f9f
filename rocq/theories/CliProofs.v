(** Proofs about the command line. *)
From Coq Require Import Lia.
From Verif Require Import CliModel CliSpec.

Lemma str_eqb_spec a b : reflect (a = b) (String.eqb a b).
Proof. apply String.eqb_spec. Qed.

Lemma append_assoc a b c : ((a ++ b) ++ c = a ++ b ++ c)%string.
Proof. induction a; cbn; congruence. Qed.
Lemma append_nil_r a : (a ++ "" = a)%string.
Proof. induction a; cbn; congruence. Qed.
Lemma length_app a b : String.length (a ++ b) = String.length a + String.length b.
Proof. induction a; cbn; congruence. Qed.
Lemma append_inj_l a b c : (a ++ b = a ++ c)%string -> b = c.
Proof. induction a; cbn; intros H; [exact H|injection H; auto]. Qed.

Lemma prefix_true p s : prefix p s = true <-> exists r, s = (p ++ r)%string.
Proof.
  revert s; induction p as [|a p IH]; intros s.
  - cbn. destruct s; split; eauto.
  - destruct s as [|b s]; cbn.
    + split; [discriminate|intros [r H]; discriminate].
    + destruct (ascii_dec a b) as [->|n].
      * rewrite IH. split; intros [r H]; exists r; [now rewrite H|now injection H].
      * split; [discriminate|intros [r H]; injection H; congruence].
Qed.

(** ** The transport of CLIPPY_ARGS *)

Lemma split_go_skip sep k s r : String.length s = k -> split_go sep k (s ++ r) = split_go sep 0 r.
Proof. revert s; induction k; intros [|c s] H; cbn in *; try discriminate; [reflexivity|]. apply IHk. now injection H. Qed.

Lemma prefix_extend p b r r' : String.length p <= String.length b ->
  prefix p (b ++ r) = prefix p (b ++ r').
Proof.
  revert b; induction p as [|a p IH]; intros b H.
  - cbn. destruct (b ++ r)%string, (b ++ r')%string; reflexivity.
  - destruct b as [|c b]; cbn in *; [lia|]. destruct (ascii_dec a c); [apply IH; lia|reflexivity].
Qed.

(** No separator starts inside [a] when [a] is followed by the separator. *)
Fixpoint clear (a : string) : Prop :=
  match a with
  | EmptyString => True
  | String _ r => prefix hackery (a ++ hackery) = false /\ clear r
  end.

Lemma split_piece a rest : clear a ->
  str_split hackery (a ++ hackery ++ rest) = a :: str_split hackery rest.
Proof.
  unfold str_split. induction a as [|c a IH]; intros H.
  - change ("" ++ hackery ++ rest)%string with (hackery ++ rest)%string.
    change (hackery ++ rest)%string with (String "_" ("_CLIPPY_HACKERY__" ++ rest)).
    cbn [split_go].
    replace (prefix hackery (String "_" ("_CLIPPY_HACKERY__" ++ rest))) with true
      by (symmetry; apply prefix_true; exists rest; reflexivity).
    reflexivity.
  - destruct H as [H1 H2]. change (String c a ++ hackery ++ rest)%string with (String c (a ++ hackery ++ rest)).
    cbn [split_go].
    replace (prefix hackery (String c (a ++ hackery ++ rest))) with false.
    + rewrite (IH H2). reflexivity.
    + rewrite <- H1. symmetry.
      change (String c (a ++ hackery ++ rest)) with (String c a ++ hackery ++ rest)%string.
      rewrite <- append_assoc. rewrite <- (append_nil_r (String c a ++ hackery)) at 2.
      apply prefix_extend. rewrite length_app. cbn. lia.
Qed.

Lemma join_args_acc l s : fold_left (fun s arg => (s ++ arg ++ hackery)%string) l s = (s ++ join_args l)%string.
Proof.
  unfold join_args. revert s; induction l as [|a l IH]; intros s; cbn [fold_left].
  - now rewrite append_nil_r.
  - rewrite IH. rewrite (IH ("" ++ a ++ hackery)%string). now rewrite !append_assoc.
Qed.
Lemma join_args_cons a l : join_args (a :: l) = (a ++ hackery ++ join_args l)%string.
Proof. unfold join_args at 1. cbn [fold_left]. rewrite join_args_acc. cbn [append]. now rewrite append_assoc. Qed.

Lemma split_join l : Forall clear l -> str_split hackery (join_args l) = l ++ [EmptyString].
Proof.
  induction 1 as [|a l Ha _ IH]; [reflexivity|].
  rewrite join_args_cons, split_piece by assumption. now rewrite IH.
Qed.

(** Arguments that do not contain `__CLIPPY_HACKERY` are clear. *)
Lemma prefix_split p b t : prefix p (b ++ t) = true ->
  (exists r, b = (p ++ r)%string) \/ (exists p2, p = (b ++ p2)%string /\ prefix p2 t = true).
Proof.
  revert b; induction p as [|a p IH]; intros b H.
  - left. exists b. reflexivity.
  - destruct b as [|c b].
    + right. exists (String a p). split; [reflexivity|exact H].
    + cbn in H. destruct (ascii_dec a c) as [->|]; [|discriminate].
      destruct (IH _ H) as [[r ->]|(p2 & -> & H2)]; [left; exists r|right; exists p2]; auto.
Qed.

Fixpoint str_drop (n : nat) (s : string) : string :=
  match n, s with O, _ => s | S n, String _ r => str_drop n r | S _, EmptyString => EmptyString end.
Lemma str_drop_app b p2 : str_drop (String.length b) (b ++ p2) = p2.
Proof. induction b; cbn; auto. Qed.
Lemma app_prefix_long u v b p2 : (u ++ v = b ++ p2)%string -> String.length u <= String.length b -> exists r, b = (u ++ r)%string.
Proof.
  revert b; induction u as [|c u IH]; intros b H L; [exists b; reflexivity|].
  destruct b as [|d b]; cbn in *; [lia|]. injection H as -> H. destruct (IH b H) as [r ->]; [lia|exists r; reflexivity].
Qed.
Lemma hackery_borders n : 1 <= n <= 15 -> prefix (str_drop n hackery) hackery = false.
Proof.
  intros H. assert (K : forallb (fun n => negb (prefix (str_drop n hackery) hackery)) (seq 1 15) = true) by (vm_compute; reflexivity).
  rewrite forallb_forall in K. specialize (K n). rewrite in_seq in K. apply negb_true_iff, K. lia.
Qed.

Lemma clear_no_core a : ~ occurs "__CLIPPY_HACKERY" a -> clear a.
Proof.
  induction a as [|c a IH]; intros H; cbn [clear]; [exact I|]. split.
  2: { apply IH. intros (u & v & ->). apply H. exists (String c u), v. reflexivity. }
  destruct (prefix hackery (String c a ++ hackery)) eqn:E; [|reflexivity]. exfalso.
  apply prefix_split in E. destruct E as [[r Hr]|(p2 & H2 & E)].
  - apply H. exists ""%string, ("__" ++ r)%string. rewrite Hr. reflexivity.
  - destruct (Nat.le_gt_cases 16 (String.length (String c a))) as [L|L].
    + destruct (app_prefix_long "__CLIPPY_HACKERY" "__" (String c a) p2) as [r Hr]; [exact H2|exact L|].
      apply H. exists ""%string, r. exact Hr.
    + rewrite <- (str_drop_app (String c a) p2) in E. rewrite <- H2 in E.
      rewrite hackery_borders in E by (cbn [String.length] in *; lia). discriminate.
Qed.

Lemma transport_args l : Forall (fun a => ~ occurs "__CLIPPY_HACKERY" a) l ->
  clippy_args_of (Some (join_args l)) = filter (fun s => negb (String.eqb s "" || String.eqb s "--no-deps")) l /\
  no_deps_of (Some (join_args l)) = existsb (fun s => String.eqb s "--no-deps") l.
Proof.
  intros H. unfold clippy_args_of, no_deps_of. rewrite split_join.
  - rewrite filter_app, existsb_app. cbn. rewrite app_nil_r, orb_false_r. auto.
  - eapply Forall_impl; [|exact H]. apply clear_no_core.
Qed.

Lemma filter_without (f : string -> bool) (D : string -> Prop) l :
  (forall a, f a = true <-> ~ D a) -> (forall a, D a \/ ~ D a) -> without D l (filter f l).
Proof.
  intros H K. induction l as [|a l IH]; cbn; [constructor|].
  destruct (f a) eqn:E.
  - constructor; [now apply H|exact IH].
  - constructor; [|exact IH]. destruct (K a) as [d|n]; [exact d|]. apply H in n. congruence.
Qed.
Lemma dropped_dec a : dropped a \/ ~ dropped a.
Proof. unfold dropped. destruct (string_dec a ""), (string_dec a "--no-deps"); tauto. Qed.
Lemma dropped_bool a : negb (String.eqb a "" || String.eqb a "--no-deps") = true <-> ~ dropped a.
Proof.
  unfold dropped. rewrite negb_true_iff, orb_false_iff, !String.eqb_neq. tauto.
Qed.

(** ** ClippyCmd::new *)
Lemma cmd_loop_acc old : forall sub args clippy,
  let '(s, a, c, r) := cmd_loop sub args clippy old in
  exists pre, cut_at_dashes old pre r /\
    s = (if in_dec string_dec "--fix" pre then "fix" else sub)%string /\
    a = args ++ filter (fun x => negb (String.eqb x "--fix" || String.eqb x "--no-deps")) pre /\
    c = clippy ++ filter (fun x => String.eqb x "--no-deps") pre.
Proof.
  induction old as [|x old IH]; intros sub args clippy; cbn [cmd_loop].
  - exists []. repeat split; try constructor; cbn; now rewrite app_nil_r.
  - destruct (str_eqb_spec x "--fix") as [->|nf]; [|destruct (str_eqb_spec x "--no-deps") as [->|nn];
      [|destruct (str_eqb_spec x "--") as [->|nd]]].
    + specialize (IH "fix"%string args clippy). destruct (cmd_loop "fix" args clippy old) as [[[s a] c] r].
      destruct IH as (pre & Hc & -> & -> & ->). exists ("--fix" :: pre)%string. repeat split.
      * constructor; [discriminate|exact Hc].
      * destruct (in_dec string_dec "--fix" ("--fix" :: pre)) as [_|n]; [|exfalso; apply n; now left].
        destruct (in_dec string_dec "--fix" pre); reflexivity.
    + specialize (IH sub args (clippy ++ ["--no-deps"%string])). destruct (cmd_loop sub args (clippy ++ ["--no-deps"%string]) old) as [[[s a] c] r].
      destruct IH as (pre & Hc & -> & -> & ->). exists ("--no-deps" :: pre)%string. repeat split.
      * constructor; [discriminate|exact Hc].
      * destruct (in_dec string_dec "--fix" pre) as [i|n], (in_dec string_dec "--fix" ("--no-deps" :: pre)) as [j|m]; try reflexivity.
        -- exfalso. apply m. now right.
        -- exfalso. destruct j as [j|j]; [discriminate|contradiction].
      * cbn [filter]. rewrite <- app_assoc. reflexivity.
    + exists []. repeat split; [constructor| |]; cbn; now rewrite app_nil_r.
    + specialize (IH sub (args ++ [x]) clippy). destruct (cmd_loop sub (args ++ [x]) clippy old) as [[[s a] c] r].
      destruct IH as (pre & Hc & -> & -> & ->). exists (x :: pre). repeat split.
      * constructor; [exact nd|exact Hc].
      * destruct (in_dec string_dec "--fix" pre) as [i|n], (in_dec string_dec "--fix" (x :: pre)) as [j|m]; try reflexivity.
        -- exfalso. apply m. now right.
        -- exfalso. destruct j as [j|j]; [congruence|contradiction].
      * cbn [filter]. apply String.eqb_neq in nf. rewrite nf. destruct (str_eqb_spec x "--no-deps"); [contradiction|].
        cbn. rewrite <- app_assoc. reflexivity.
      * cbn [filter]. destruct (str_eqb_spec x "--no-deps"); [contradiction|]. reflexivity.
Qed.

Lemma cut_unique l pre post : cut_at_dashes l pre post -> forall pre' post', cut_at_dashes l pre' post' -> pre = pre' /\ post = post'.
Proof.
  induction 1 as [|post|a l pre post n H IH]; intros pre' post' H'; inversion H'; subst; auto; try congruence.
  match goal with K : cut_at_dashes l _ _ |- _ => destruct (IH _ _ K) as [-> ->] end. auto.
Qed.

(** ** arg_value *)
Lemma split_once_some c s a b : split_once c s = (a, Some b) -> s = (a ++ String c b)%string.
Proof.
  revert a; induction s as [|d s IH]; intros a; cbn; [discriminate|].
  destruct (Ascii.eqb_spec c d) as [->|n].
  - intros H. injection H as <- <-. reflexivity.
  - destruct (split_once c s) as [x y]. intros H. injection H as <- ->. cbn. f_equal. now apply IH.
Qed.
Lemma split_once_none c s a : split_once c s = (a, None) -> a = s.
Proof.
  revert a; induction s as [|d s IH]; intros a; cbn; [intros H; now injection H|].
  destruct (Ascii.eqb_spec c d) as [->|n]; [discriminate|].
  destruct (split_once c s) as [x y]. intros H. injection H as <- ->. f_equal. now apply IH.
Qed.
Fixpoint lacks (c : ascii) (s : string) : Prop :=
  match s with EmptyString => True | String d r => c <> d /\ lacks c r end.
Lemma split_once_lacks c s : lacks c s -> split_once c s = (s, None).
Proof.
  induction s as [|d s IH]; cbn; [reflexivity|]. intros [n H]. destruct (Ascii.eqb_spec c d); [contradiction|].
  now rewrite IH.
Qed.
Lemma split_once_app c s t : lacks c s -> split_once c (s ++ String c t) = (s, Some t).
Proof.
  induction s as [|d s IH]; cbn; intros H.
  - now rewrite Ascii.eqb_refl.
  - destruct H as [n H]. destruct (Ascii.eqb_spec c d); [contradiction|]. now rewrite IH.
Qed.

Lemma gives_inv f a l v : gives f (a :: l) v ->
  a = (f ++ "=" ++ v)%string \/ (a = f /\ exists l', l = v :: l') \/
  (exists w, a = (f ++ "=" ++ w)%string /\ gives f l v) \/
  (exists w l', a = f /\ l = w :: l' /\ gives f l' v) \/
  (a <> f /\ (forall w, a <> (f ++ "=" ++ w)%string) /\ gives f l v).
Proof.
  remember (a :: l) as al eqn:E. destruct 1; injection E as E1 E2; subst.
  - now left.
  - right; left. eauto.
  - right; right; left. eexists; split; [reflexivity|assumption].
  - right; right; right; left. do 2 eexists; repeat split; assumption.
  - right; right; right; right. auto.
Qed.

Lemma arg_value_gives f pred : lacks "=" f -> forall args,
  arg_value args f pred = true <-> exists v, gives f args v /\ pred v = true.
Proof.
  intros Lf. intros args. remember (List.length args) as n eqn:En. revert args En.
  assert (NE : forall w, f <> (f ++ "=" ++ w)%string).
  { intros w X. apply (f_equal String.length) in X. rewrite !length_app in X. cbn in X. lia. }
  induction n as [n IH] using lt_wf_ind. intros args ->.
  destruct args as [|arg args]; cbn [arg_value].
  - split; [discriminate|]. intros (v & H & _). inversion H.
  - destruct (split_once "=" arg) as [name o] eqn:E.
    assert (IHr : arg_value args f pred = true <-> exists v, gives f args v /\ pred v = true)
      by (eapply IH; [|reflexivity]; cbn; lia).
    destruct (str_eqb_spec name f) as [->|nf]; cbn [negb].
    + destruct o as [v|].
      * apply split_once_some in E. subst arg. change (f ++ String "=" v)%string with (f ++ "=" ++ v)%string.
        destruct (pred v) eqn:Ev.
        -- split; [|reflexivity]. intros _. exists v. split; [constructor|exact Ev].
        -- rewrite IHr. split; intros (w & Hw & Pw).
           ++ exists w. split; [now apply gives_after_eq|exact Pw].
           ++ exists w. split; [|exact Pw].
              destruct (gives_inv _ _ _ _ Hw) as [X|[[X _]|[(z & X & Y)|[(z & l' & X & _)|(X & Y & Z)]]]].
              ** apply append_inj_l in X. cbn in X. injection X as <-. congruence.
              ** symmetry in X. now apply NE in X.
              ** exact Y.
              ** symmetry in X. now apply NE in X.
              ** exact Z.
      * apply split_once_none in E. subst arg.
        destruct args as [|v args].
        -- split; [discriminate|]. intros (w & Hw & _).
           destruct (gives_inv _ _ _ _ Hw) as [X|[[X [l' Y]]|[(z & X & Y)|[(z & l' & X & Y & _)|(X & Y & Z)]]]];
             try discriminate; try (now apply NE in X). contradiction.
        -- destruct (pred v) eqn:Ev.
           ++ split; [|reflexivity]. intros _. exists v. split; [apply gives_sep|exact Ev].
           ++ assert (IHr2 : arg_value args f pred = true <-> exists v, gives f args v /\ pred v = true)
                by (eapply IH; [|reflexivity]; cbn; lia).
              rewrite IHr2. split; intros (w & Hw & Pw).
              ** exists w. split; [now apply gives_after_sep|exact Pw].
              ** exists w. split; [|exact Pw].
                 destruct (gives_inv _ _ _ _ Hw) as [X|[[X [l' Y]]|[(z & X & Y)|[(z & l' & X & Y & Z)|(X & Y & Z)]]]];
                   try (now apply NE in X); try contradiction.
                 --- injection Y as -> ->. congruence.
                 --- injection Y as -> ->. exact Z.
    + rewrite IHr.
      assert (N1 : arg <> f). { intros ->. rewrite split_once_lacks in E by exact Lf. injection E as <- _. contradiction. }
      assert (N2 : forall w, arg <> (f ++ "=" ++ w)%string).
      { intros w ->. cbn [append] in E. rewrite (split_once_app "=" f w Lf) in E. injection E as <- _. contradiction. }
      split; intros (w & Hw & Pw); exists w; (split; [|exact Pw]).
      * now apply gives_skip.
      * destruct (gives_inv _ _ _ _ Hw) as [X|[[X [l' Y]]|[(z & X & Y)|[(z & l' & X & Y & Z)|(X & Y & Z)]]]];
          try contradiction; try (now apply N2 in X). exact Z.
Qed.

(** ** The dispatch of cargo-clippy *)
Lemma existsb_in (f : string -> bool) (P : string -> Prop) l :
  (forall a, f a = true <-> P a) -> existsb f l = true <-> exists a, In a l /\ P a.
Proof. intros H. rewrite existsb_exists. split; intros (a & I & K); exists a; split; auto; now apply H. Qed.
Lemma existsb_no (f : string -> bool) (P : string -> Prop) l :
  (forall a, f a = true <-> P a) -> existsb f l = false <-> forall a, In a l -> ~ P a.
Proof.
  intros H. split.
  - intros E a I K. enough (existsb f l = true) by congruence. apply (existsb_in f P); [exact H|eauto].
  - intros K. destruct (existsb f l) eqn:E; [|reflexivity]. apply (existsb_in f P) in E; [|exact H].
    destruct E as (a & I & Q). exfalso. exact (K a I Q).
Qed.
Lemma is_help_spec a : is_help a = true <-> a = "--help"%string \/ a = "-h"%string.
Proof. unfold is_help. rewrite orb_true_iff, !String.eqb_eq. tauto. Qed.
Lemma is_version_spec a : is_version a = true <-> a = "--version"%string \/ a = "-V"%string.
Proof. unfold is_version. rewrite orb_true_iff, !String.eqb_eq. tauto. Qed.

Lemma position_some {A} (f : A -> bool) l n : position f l = Some n ->
  exists u x v, l = u ++ x :: v /\ List.length u = n /\ f x = true /\ forallb (fun y => negb (f y)) u = true.
Proof.
  revert n; induction l as [|x l IH]; intros n; cbn; [discriminate|].
  destruct (f x) eqn:E.
  - intros H. injection H as <-. exists [], x, l. auto.
  - destruct (position f l) as [k|]; [|discriminate]. cbn. intros H. injection H as <-.
    destruct (IH k eq_refl) as (u & y & v & -> & <- & Fy & Fu). exists (x :: u), y, v. cbn. rewrite E. auto.
Qed.
Lemma position_none {A} (f : A -> bool) l : position f l = None <-> existsb f l = false.
Proof.
  induction l as [|x l IH]; cbn; [tauto|]. destruct (f x); cbn; [split; discriminate|].
  rewrite <- IH. destruct (position f l); cbn; split; congruence.
Qed.
Lemma position_app {A} (f : A -> bool) u x v : forallb (fun y => negb (f y)) u = true -> f x = true ->
  position f (u ++ x :: v) = Some (List.length u).
Proof.
  intros Hu Hx. induction u as [|y u IH]; cbn in *; [now rewrite Hx|].
  apply andb_true_iff in Hu as [H1 H2]. apply negb_true_iff in H1. rewrite H1, IH by exact H2. reflexivity.
Qed.

Lemma cmd_new_spec rest pre post : cut_at_dashes rest pre post ->
  let c := cmd_new rest in
  cargo_subcommand c = (if in_dec string_dec "--fix" pre then "fix" else "check")%string /\
  without own_flag pre (cargo_args c) /\
  exists flags tail, clippy_args c = flags ++ post ++ tail /\
    Forall (fun a => a = "--no-deps"%string) (flags ++ tail) /\
    (In "--no-deps"%string (clippy_args c) <-> In "--no-deps"%string pre \/ In "--no-deps"%string post \/ In "--fix"%string pre) /\
    List.length flags = count_occ string_dec pre "--no-deps"%string /\
    (tail = [] \/ (tail = ["--no-deps"%string] /\ ~ In "--no-deps"%string (flags ++ post))).
Proof.
  intros Hcut. unfold cmd_new.
  pose proof (cmd_loop_acc rest "check"%string [] []) as H.
  destruct (cmd_loop "check" [] [] rest) as [[[s a] c] r]. destruct H as (pre' & Hc & Hs & Ha & Hcl).
  destruct (cut_unique _ _ _ Hcut _ _ Hc) as [<- <-]. cbn [app] in Ha, Hcl. subst a c.
  cbn [cargo_subcommand cargo_args clippy_args].
  set (nd := filter (fun x => String.eqb x "--no-deps") pre).
  assert (Fnd : Forall (fun a => a = "--no-deps"%string) nd).
  { apply Forall_forall. intros x Hx. apply filter_In in Hx as [_ Hx]. now apply String.eqb_eq. }
  assert (Ind : In "--no-deps"%string nd <-> In "--no-deps"%string pre).
  { unfold nd. rewrite filter_In. rewrite String.eqb_refl. tauto. }
  assert (Cnd : List.length nd = count_occ string_dec pre "--no-deps"%string).
  { unfold nd. clear. induction pre as [|x l IH]; cbn; [reflexivity|].
    destruct (str_eqb_spec x "--no-deps") as [e|n], (string_dec x "--no-deps") as [e'|n']; cbn; congruence. }
  assert (Hown : without own_flag pre (filter (fun x => negb (String.eqb x "--fix" || String.eqb x "--no-deps")) pre)).
  { apply filter_without.
    - intros x. unfold own_flag. rewrite negb_true_iff, orb_false_iff, !String.eqb_neq. tauto.
    - intros x. unfold own_flag. destruct (string_dec x "--fix"), (string_dec x "--no-deps"); tauto. }
  assert (Hfix : String.eqb s "fix" = true <-> In "--fix"%string pre).
  { subst s. destruct (in_dec string_dec "--fix" pre); cbn; split; try tauto; try discriminate; reflexivity. }
  assert (Hex : existsb (fun a => String.eqb a "--no-deps") (nd ++ post) = true <-> In "--no-deps"%string (nd ++ post)).
  { rewrite existsb_exists. split; [intros (x & I & K); apply String.eqb_eq in K; now subst|eauto using String.eqb_refl]. }
  split; [exact Hs|]. split; [exact Hown|].
  destruct (String.eqb s "fix") eqn:Es; cbn [andb].
  - destruct (existsb _ (nd ++ post)) eqn:Eb; cbn [negb].
    + exists nd, []. rewrite !app_nil_r. repeat split; auto.
      * intros I. apply in_app_or in I as [I|I]; [left; now apply Ind|tauto].
      * intros _. now apply Hex.
    + exists nd, ["--no-deps"%string]. rewrite <- app_assoc. repeat split; auto.
      * apply Forall_app. auto.
      * intros _. right; right. now apply Hfix.
      * intros _. rewrite app_assoc. apply in_or_app. right. now left.
      * right. split; [reflexivity|]. intros I. apply Hex in I. congruence.
  - exists nd, []. rewrite !app_nil_r. repeat split; auto.
    + intros I. apply in_app_or in I as [I|I]; [left; now apply Ind|tauto].
    + intros [I|[I|I]]; apply in_or_app; [left; now apply Ind|now right|]. apply Hfix in I. discriminate.
Qed.

Lemma cargo_clippy_spawn ce path argv : 
  (forall a, In a argv -> a <> "--help" /\ a <> "-h" /\ a <> "--version" /\ a <> "-V" /\ a <> "--explain")%string ->
  cargo_clippy ce path argv = Spawn (into_std_cmd ce path (cmd_new (skipn 2 argv))).
Proof.
  intros H. unfold cargo_clippy.
  rewrite (proj2 (existsb_no is_help _ argv is_help_spec)) by (intros a I [E|E]; destruct (H a I) as (A1 & A2 & A3 & A4 & A5); auto).
  rewrite (proj2 (existsb_no is_version _ argv is_version_spec)) by (intros a I [E|E]; destruct (H a I) as (A1 & A2 & A3 & A4 & A5); auto).
  replace (position (fun a => String.eqb a "--explain") argv) with (@None nat); [reflexivity|].
  symmetry. apply position_none. apply (existsb_no _ (fun a => a = "--explain"%string)).
  - intros a. apply String.eqb_eq.
  - intros a I E. destruct (H a I) as (A1 & A2 & A3 & A4 & A5); auto.
Qed.

(** ** The driver *)
Lemma strip_prefix_some p s r : strip_prefix p s = Some r <-> s = (p ++ r)%string.
Proof.
  revert s; induction p as [|a p IH]; intros s; cbn.
  - split; [intros H; now injection H|now intros ->].
  - destruct s as [|b s]; [split; discriminate|]. destruct (Ascii.eqb_spec a b) as [->|n].
    + rewrite IH. split; [now intros ->|intros H; now injection H].
    + split; [discriminate|]. intros H. injection H. congruence.
Qed.
Lemma is_arg_spec a k : is_arg a k = true <-> flag_form k a.
Proof.
  unfold is_arg, flag_form. split.
  - destruct (strip_prefix k a) as [s|] eqn:E; [|discriminate]. apply strip_prefix_some in E. subst a.
    rewrite orb_true_iff. intros [H|H].
    + apply String.eqb_eq in H. subst s. left. apply append_nil_r.
    + right. destruct s as [|c s]; [discriminate|]. unfold starts_with in H. apply Ascii.eqb_eq in H. subst c. exists s. reflexivity.
  - intros [->|[v ->]].
    + replace (strip_prefix k k) with (Some ""%string); [reflexivity|]. symmetry. apply strip_prefix_some. now rewrite append_nil_r.
    + replace (strip_prefix k (k ++ "=" ++ v)) with (Some ("=" ++ v)%string); [reflexivity|]. symmetry. now apply strip_prefix_some.
Qed.

Lemma split_go_nonempty sep s : forall k, split_go sep k s <> [].
Proof.
  induction s as [|c s IH]; intros k; cbn [split_go]; [discriminate|]. destruct k; [|apply IH].
  destruct (prefix sep (String c s)); [discriminate|]. destruct (split_go sep 0 s) eqn:E; [|discriminate].
  now apply IH in E.
Qed.
Lemma split_no_slash s : lacks "/" s -> str_split "/" s = [s].
Proof.
  unfold str_split. induction s as [|c s IH]; [reflexivity|]. intros [n L].
  cbn [split_go]. cbn [prefix]. destruct (ascii_dec "/" c); [contradiction|]. now rewrite IH.
Qed.
Lemma split_slash_app d s : lacks "/" s -> str_split "/" (d ++ String "/" s) = str_split "/" d ++ [s].
Proof.
  intros L. unfold str_split. induction d as [|c d IH].
  - cbn [append split_go].
    replace (prefix "/" (String "/" s)) with true by (symmetry; apply prefix_true; exists s; reflexivity).
    change (split_go "/" (pred (String.length "/")) s) with (str_split "/" s). now rewrite split_no_slash.
  - change (String c d ++ String "/" s)%string with (String c (d ++ String "/" s)).
    cbn [split_go prefix]. destruct (ascii_dec "/" c).
    + replace (prefix "" (d ++ String "/" s)) with true by (destruct (d ++ String "/" s)%string; reflexivity).
      replace (prefix "" d) with true by (destruct d; reflexivity).
      cbn [String.length Nat.pred]. rewrite IH. reflexivity.
    + rewrite IH. destruct (split_go "/" 0 d) eqn:E; [|reflexivity].
      exfalso. now apply split_go_nonempty in E.
Qed.
Lemma file_stem_dir d n : lacks "/" n -> n <> ""%string -> n <> "."%string ->
  file_stem (d ++ String "/" n) = file_stem n.
Proof.
  intros L N1 N2. unfold file_stem. rewrite split_slash_app, (split_no_slash n) by exact L.
  rewrite filter_app. cbn [filter]. apply String.eqb_neq in N1, N2. rewrite N1, N2. cbn [orb negb].
  rewrite rev_app_distr. reflexivity.
Qed.

Lemma pass_sysroot_form F r args : pass_sysroot F r args = args \/
  exists v, r = Some v /\ pass_sysroot F r args = args ++ ["--sysroot"%string; v].
Proof. unfold pass_sysroot. destruct r as [v|]; [|now left]. destruct (has_sysroot_arg F args); [now left|right; eauto]. Qed.

Lemma contains_occurs p s : contains p s = true <-> occurs p s.
Proof.
  unfold occurs. induction s as [|c s IH]; cbn [contains]; rewrite orb_true_iff.
  - split.
    + intros [H|H]; [|discriminate]. apply prefix_true in H as [r H]. exists ""%string, r. exact H.
    + intros (u & v & H). left. apply prefix_true. destruct u; [exists v; exact H|discriminate].
  - rewrite IH. split.
    + intros [H|(u & v & ->)]; [apply prefix_true in H as [r H]; exists ""%string, r; exact H|].
      exists (String c u), v. reflexivity.
    + intros (u & v & H). destruct u as [|d u]; [left; apply prefix_true; exists v; exact H|].
      cbn in H. injection H as -> ->. right. eauto.
Qed.

Lemma no_deps_spec l : Forall (fun a => ~ occurs "__CLIPPY_HACKERY" a) l ->
  no_deps_of (Some (join_args l)) = true <-> In "--no-deps"%string l.
Proof.
  intros H. rewrite (proj2 (transport_args l H)). rewrite existsb_exists.
  split; [intros (x & I & K); apply String.eqb_eq in K; now subst|eauto using String.eqb_refl].
Qed.
Lemma without_app D l1 l1' l2 l2' : without D l1 l1' -> without D l2 l2' -> without D (l1 ++ l2) (l1' ++ l2').
Proof. induction 1; cbn; intros; auto; [apply without_drop|apply without_keep]; auto. Qed.
Lemma without_all (D : string -> Prop) l : Forall D l -> without D l [].
Proof. induction 1; [constructor|apply without_drop]; auto. Qed.
Lemma without_unique D l a b : without D l a -> without D l b -> a = b.
Proof.
  intros H. revert b. induction H; intros b' Hb; inversion Hb; subst; auto; try contradiction. f_equal. auto.
Qed.

(** The result of the driver when it is neither asked for rustc, the version nor help. *)
Definition wrapped (argv : list string) : bool :=
  match nth_error argv 1 with
  | Some a => match file_stem a with Some st => String.eqb st "rustc" | None => false end
  | None => false
  end.
Lemma driver_run E argv args cb : driver E argv = DrvRun args cb -> cb <> DefaultCallbacks ->
  let orig := if wrapped argv then remove_nth 1 argv else argv in
  let base := pass_sysroot (fs E) (sysroot_var E) orig in
  let on := negb (cap_lints_allow orig) && (negb (no_deps_of (clippy_args_var E)) || primary_package E)
            && negb (info_query base orig) in
  (cb = ClippyCallbacks /\ on = true /\ args = base ++ clippy_args_of (clippy_args_var E) ++ ["--cfg"; "clippy"]%string) \/
  (cb = RustcCallbacks /\ on = false /\ args = base).
Proof.
  unfold driver. intros H N. fold (wrapped argv) in H.
  destruct (position _ argv) as [pos|].
  - destruct (remove_nth pos argv); [discriminate|]. injection H as _ <-. contradiction.
  - destruct (existsb is_version argv); [discriminate|].
    destruct (negb (wrapped argv) && _); [discriminate|]. cbv zeta.
    match type of H with (if ?b then _ else _) = _ => destruct b eqn:Eb end; injection H as <- <-; [left|right]; auto.
Qed.

Lemma fold_right_join l : fold_right (fun a s => a ++ "__CLIPPY_HACKERY__" ++ s)%string ""%string l = join_args l.
Proof. induction l as [|a l IH]; [reflexivity|]. cbn [fold_right]. rewrite join_args_cons, IH. reflexivity. Qed.
Lemma lacks_lit : lacks "=" "--cap-lints" /\ lacks "=" "--force-warn" /\ lacks "=" "--print".
Proof. cbn. repeat split; discriminate. Qed.
Lemma cap_lints_spec l : cap_lints_allow l = true <->
  (gives "--cap-lints" l "allow" /\ ~ exists v, gives "--force-warn" l v /\ occurs "clippy::" v).
Proof.
  unfold cap_lints_allow. destruct lacks_lit as (L1 & L2 & L3).
  rewrite andb_true_iff, negb_true_iff. rewrite (arg_value_gives _ _ L1).
  assert (X : arg_value l "--force-warn" (contains "clippy::") = false <-> ~ exists v, gives "--force-warn" l v /\ occurs "clippy::" v).
  { rewrite <- not_true_iff_false. rewrite (arg_value_gives _ _ L2).
    split; intros H (v & G & K); apply H; exists v; split; auto; now apply contains_occurs. }
  rewrite X. split.
  - intros [(v & G & K) N]. apply String.eqb_eq in K. subst v. auto.
  - intros [G N]. split; [exists "allow"%string; split; [exact G|apply String.eqb_refl]|exact N].
Qed.
Lemma info_query_spec base orig : info_query base orig = true <->
  In "-vV"%string base \/ exists v, gives "--print" orig v /\ v <> "crate-root-lint-levels"%string.
Proof.
  unfold info_query. destruct lacks_lit as (L1 & L2 & L3). rewrite orb_true_iff, (arg_value_gives _ _ L3), existsb_exists.
  split; (intros [H|H]; [left|right]).
  - destruct H as (x & I & K). apply String.eqb_eq in K. now subst.
  - destruct H as (v & G & K). exists v. split; [exact G|]. apply negb_true_iff, String.eqb_neq in K. exact K.
  - exists "-vV"%string. split; [exact H|reflexivity].
  - destruct H as (v & G & K). exists v. split; [exact G|]. apply negb_true_iff, String.eqb_neq. exact K.
Qed.

Lemma driver_lints_spec : forall E argv args cb dargs,
  driver E argv = DrvRun args cb -> cb <> DefaultCallbacks ->
  clippy_args_var E = Some (fold_right (fun a s => a ++ "__CLIPPY_HACKERY__" ++ s)%string ""%string dargs) ->
  Forall (fun a => ~ occurs "__CLIPPY_HACKERY" a) dargs ->
  exists orig base,
    (orig = argv \/ exists prog r l, argv = prog :: r :: l /\ file_stem r = Some "rustc"%string /\ orig = prog :: l) /\
    base = pass_sysroot (fs E) (sysroot_var E) orig /\
    (cb = ClippyCallbacks <->
       ~ (gives "--cap-lints" orig "allow" /\ ~ exists v, gives "--force-warn" orig v /\ occurs "clippy::" v) /\
       (In "--no-deps"%string dargs -> primary_package E = true) /\
       ~ In "-vV"%string base /\
       ~ (exists v, gives "--print" orig v /\ v <> "crate-root-lint-levels"%string)) /\
    (cb = RustcCallbacks -> args = base) /\
    (cb = ClippyCallbacks -> exists user, without dropped dargs user /\ args = base ++ user ++ ["--cfg"; "clippy"]%string).
Proof.
  intros E argv args cb dargs HD N HV HS. rewrite fold_right_join in HV.
  pose proof (driver_run _ _ _ _ HD N) as H. cbv zeta in H.
  set (orig := if wrapped argv then remove_nth 1 argv else argv) in *.
  set (base := pass_sysroot (fs E) (sysroot_var E) orig) in *.
  exists orig, base. rewrite HV in H. rewrite (proj1 (transport_args _ HS)) in H.
  split; [|split; [|split; [|split]]].
  - unfold orig, wrapped. destruct argv as [|prog [|r l]]; cbn [nth_error]; try (left; reflexivity).
    destruct (file_stem r) as [st|] eqn:Es; [|left; reflexivity].
    destruct (str_eqb_spec st "rustc") as [->|]; [|left; reflexivity]. right. exists prog, r, l. auto.
  - reflexivity.
  - assert (X : negb (cap_lints_allow orig) && (negb (no_deps_of (Some (join_args dargs))) || primary_package E) && negb (info_query base orig) = true <->
       ~ (gives "--cap-lints" orig "allow" /\ ~ exists v, gives "--force-warn" orig v /\ occurs "clippy::" v) /\
       (In "--no-deps"%string dargs -> primary_package E = true) /\
       ~ In "-vV"%string base /\ ~ (exists v, gives "--print" orig v /\ v <> "crate-root-lint-levels"%string)).
    { rewrite !andb_true_iff, orb_true_iff, !negb_true_iff, <- !not_true_iff_false, cap_lints_spec, info_query_spec, no_deps_spec by exact HS.
      destruct (in_dec string_dec "--no-deps" dargs), (primary_package E); tauto. }
    rewrite <- X. destruct H as [(-> & Ho & _)|(-> & Ho & _)]; rewrite Ho; [tauto|]. split; discriminate.
  - intros ->. destruct H as [(K & _)|(_ & _ & ->)]; [discriminate|reflexivity].
  - intros ->. destruct H as [(_ & _ & ->)|(K & _)]; [|discriminate].
    eexists. split; [|reflexivity]. apply filter_without; [apply dropped_bool|apply dropped_dec].
Qed.

Lemma remove_nth_app {A} (u : list A) x v : remove_nth (List.length u) (u ++ x :: v) = u ++ v.
Proof. induction u as [|y u IH]; [reflexivity|]. cbn [List.length app remove_nth]. now rewrite IH. Qed.
Lemma driver_rustc_spec : forall E prog u v, ~ In "--rustc"%string (prog :: u) ->
  driver E (prog :: u ++ "--rustc"%string :: v) = DrvRun (pass_sysroot (fs E) (sysroot_var E) ("rustc"%string :: u ++ v)) DefaultCallbacks.
Proof.
  intros E prog u v H. unfold driver.
  change (prog :: u ++ "--rustc"%string :: v) with ((prog :: u) ++ "--rustc"%string :: v).
  rewrite position_app; [|apply forallb_forall; intros a I; apply negb_true_iff, String.eqb_neq; intros ->; contradiction|reflexivity].
  rewrite remove_nth_app. reflexivity.
Qed.
