(** Merging arms of a `match`. *)
From Verif Require Export ArmsNorm.
From Coq Require Import Sorted.

Section Merge.
  Context {G B S R : Type}.
  Variable guard_ : G -> env -> S -> option (bool * S).
  Variable body_ : B -> env -> S -> R.
  Notation arm := (arm G B).
  Notation run := (run guard_ body_). Notation agree := (agree guard_ body_).
  (** ** A `match` tries one thing after the other *)
  Definition attempt := (option G * B * env)%type.
  Fixpoint attempts (l : list attempt) (s : S) : outcome R :=
    match l with
    | [] => Unmatched
    | (g, b, w) :: l =>
        match g with
        | None => Ran (body_ b w s)
        | Some g => match guard_ g w s with None => Failed | Some (true, s) => Ran (body_ b w s) | Some (false, s) => attempts l s end
        end
    end.
  Definition att (v : val) (a : arm) : list attempt := map (fun w => (a_guard a, a_body a, w)) (ways (a_pat a) v).
  Lemma run_attempts arms v : forall s, run arms v s = attempts (flat_map (att v) arms) s.
  Proof.
    induction arms as [|a arms IH]; intros s; [reflexivity|]. cbn [ArmsSpec.run flat_map]. unfold att at 1. generalize (ways (a_pat a) v). intros ws. revert s. induction ws as [|w ws IHw]; intros s; [apply IH|].
    cbn. destruct (a_guard a) as [g|] eqn:E; [|reflexivity]. destruct (guard_ g w s) as [[[|] s']|]; auto.
  Qed.
  (** Attempts that do the same. *)
  Definition alike (x y : attempt) : Prop :=
    snd x = snd y /\ (match fst (fst x), fst (fst y) with None, None => True | Some g, Some h => forall e s, guard_ g e s = guard_ h e s | _, _ => False end) /\
    (forall e s, body_ (snd (fst x)) e s = body_ (snd (fst y)) e s).
  Lemma alike_attempts l r : Forall2 alike l r -> forall s, attempts l s = attempts r s.
  Proof.
    induction 1 as [|[[g b] w] [[h c] w'] l r (E & A & C) F IH]; intros s; [reflexivity|]. cbn in *. subst w'. destruct g as [g|], h as [h|]; try contradiction; [|rewrite C; reflexivity].
    rewrite A. destruct (guard_ h w s) as [[[|] s']|]; auto. rewrite C. reflexivity.
  Qed.
  Lemma alike_refl x : alike x x.
  Proof. destruct x as [[[g|] b] w]; repeat split. Qed.
  Lemma alike_list l : Forall2 alike l l.
  Proof. induction l; constructor; auto using alike_refl. Qed.
  Lemma alike_eq l r : l = r -> Forall2 alike l r.
  Proof. intros ->. apply alike_list. Qed.
  Lemma agree_sym a b : agree a b -> agree b a.
  Proof. intros [A C]. split; [|intros; symmetry; apply C]. destruct (a_guard a), (a_guard b); auto. Qed.
  Lemma agree_refl a : agree a a.
  Proof. split; [destruct (a_guard a)|]; auto. Qed.
  Lemma agree_alike a b ws : agree a b -> Forall2 alike (map (fun w => (a_guard a, a_body a, w)) ws) (map (fun w => (a_guard b, a_body b, w)) ws).
  Proof. intros [A C]. induction ws; cbn; constructor; [split; [reflexivity|split; auto]|]. exact IHws. Qed.

  (** ** Members of a group and the others *)
  Definition disjoint (a b : arm) : Prop := forall v, ways (a_pat a) v = [] \/ ways (a_pat b) v = [].
  Lemma att_disjoint a b v : disjoint a b -> att v a = [] \/ att v b = [].
  Proof. intros H. unfold att. destruct (H v) as [-> | ->]; auto. Qed.
  Section Part.
    Context {X : Type}.
    Variable f : X -> list attempt.
    Variable mem : X -> bool.
    Lemma flat_nil l : (forall x, In x l -> f x = []) -> flat_map f l = [].
    Proof. induction l as [|x l IH]; intros H; [reflexivity|]. cbn. rewrite (H x (or_introl eq_refl)), IH; [reflexivity|]. intros y J. apply H. right. exact J. Qed.
    Lemma members_first l : StronglySorted (fun x m => mem x = false -> mem m = true -> f x = [] \/ f m = []) l ->
      flat_map f l = flat_map f (filter mem l) ++ flat_map f (filter (fun x => negb (mem x)) l).
    Proof.
      induction 1 as [|x l SS IH F]; [reflexivity|]. cbn. rewrite IH. destruct (mem x) eqn:E; cbn; [apply app_assoc|]. rewrite Forall_forall in F.
      destruct (f x) as [|y ys] eqn:Q; [reflexivity|]. rewrite (flat_nil (filter mem l)); [cbn; reflexivity|]. intros m J. apply filter_In in J. destruct J as [J M]. destruct (F m J eq_refl M); [congruence|assumption].
    Qed.
    Lemma members_last l : StronglySorted (fun m x => mem m = true -> mem x = false -> f m = [] \/ f x = []) l ->
      flat_map f l = flat_map f (filter (fun x => negb (mem x)) l) ++ flat_map f (filter mem l).
    Proof.
      induction 1 as [|x l SS IH F]; [reflexivity|]. cbn. rewrite IH. destruct (mem x) eqn:E; cbn; [|apply app_assoc]. rewrite Forall_forall in F.
      destruct (f x) as [|y ys] eqn:Q; [reflexivity|]. rewrite (flat_nil (filter (fun x => negb (mem x)) l)); [cbn; reflexivity|].
      intros m J. apply filter_In in J. destruct J as [J M]. destruct (F m J eq_refl); [destruct (mem m); [discriminate M|reflexivity]|congruence|assumption].
    Qed.
  End Part.
  (** ** Numbered arms *)
  Lemma enum_in {X} (l : list X) : forall k i x, In (i, x) (enumerate k l) <-> k <= i /\ nth_error l (i - k) = Some x.
  Proof.
    unfold enumerate. induction l as [|y l IH]; intros k i x; cbn; [split; [tauto|intros [_ H]; destruct (i - k); discriminate H]|]. rewrite IH. split.
    - intros [E|[L N]]; [injection E as -> ->; rewrite Nat.sub_diag; auto|]. replace (i - k) with (Datatypes.S (i - Datatypes.S k)) by lia. split; [lia|exact N].
    - intros [L N]. destruct (Nat.eq_dec i k) as [->|]; [rewrite Nat.sub_diag in N; injection N as ->; auto|]. right. split; [lia|]. replace (i - k) with (Datatypes.S (i - Datatypes.S k)) in N by lia. exact N.
  Qed.
  Lemma enum_sorted {X} (l : list X) : forall k, StronglySorted (fun a b => fst a < fst b) (enumerate k l).
  Proof.
    unfold enumerate. induction l as [|y l IH]; intros k; cbn; constructor; [apply IH|]. apply Forall_forall. intros [i x] J. apply (enum_in l) in J. cbn. lia.
  Qed.
  Lemma enum_split {X} (l : list X) i x : nth_error l i = Some x -> exists a b, enumerate 0 l = a ++ (i, x) :: b /\ (forall j y, In (j, y) a -> j < i) /\ (forall j y, In (j, y) b -> i < j).
  Proof.
    intros N. assert (J : In (i, x) (enumerate 0 l)) by (apply enum_in; rewrite Nat.sub_0_r; auto with arith). apply in_split in J. destruct J as (a & b & E). exists a, b. split; [exact E|].
    pose proof (enum_sorted l 0) as SS. rewrite E in SS. clear E. induction a as [|z a IH]; cbn in SS; inversion SS as [|? ? SS' F]; subst.
    - split; [intros ? ? []|]. intros j y J. rewrite Forall_forall in F. exact (F _ J).
    - destruct (IH SS') as [P Q]. split; [|exact Q]. intros j y [->|J]; [|eauto]. rewrite Forall_forall in F. apply (F (i, x)). apply in_or_app. right. left. reflexivity.
  Qed.
  Lemma flat_enum {X Y} (f : X -> list Y) l : forall k, flat_map f l = flat_map (fun ix => f (snd ix)) (enumerate k l).
  Proof. unfold enumerate. induction l as [|x l IH]; intros k; [reflexivity|]. cbn. rewrite (IH (Datatypes.S k)). reflexivity. Qed.

  Definition is_in (js : list nat) (ia : nat * arm) : bool := existsb (Nat.eqb (fst ia)) js.
  Lemma is_in_spec js i a : is_in js (i, a) = true <-> In i js.
  Proof. unfold is_in. rewrite existsb_exists. split; [intros (j & J & E); apply Nat.eqb_eq in E; cbn in E; congruence|]. intros J. exists i. split; [exact J|apply Nat.eqb_refl]. Qed.
  (** What the edited arms try. *)
  Lemma edit_attempts arms removed replaced v :
    flat_map (att v) (edit arms removed replaced) =
    flat_map (fun ia => if is_in removed ia then [] else
       match replaced with Some (j, p) => if fst ia =? j then att v {| a_pat := p; a_guard := a_guard (snd ia); a_body := a_body (snd ia) |} else att v (snd ia) | None => att v (snd ia) end) (enumerate 0 arms).
  Proof.
    unfold edit. generalize (enumerate 0 arms). intros l. induction l as [|[i a] l IH]; [reflexivity|]. cbn [flat_map]. rewrite flat_map_app, IH. f_equal. unfold is_in. cbn [fst snd].
    destruct (existsb _ removed); [reflexivity|]. destruct replaced as [[j p]|]; [destruct (i =? j)|]; cbn; apply app_nil_r.
  Qed.
  Lemma flat_ext {X} (f g : X -> list attempt) l : (forall x, In x l -> f x = g x) -> flat_map f l = flat_map g l.
  Proof. induction l as [|x l IH]; intros H; [reflexivity|]. cbn. rewrite (H x (or_introl eq_refl)), IH; [reflexivity|]. intros y J. apply H. right. exact J. Qed.
  Lemma flat_filter {X} (f : X -> list attempt) m l : flat_map f (filter m l) = flat_map (fun x => if m x then f x else []) l.
  Proof. induction l as [|x l IH]; [reflexivity|]. cbn. destruct (m x); cbn; rewrite IH; reflexivity. Qed.
  Lemma or_attempts ms v a : flat_map (fun ia : nat * arm => map (fun w => (a_guard a, a_body a, w)) (ways (a_pat (snd ia)) v)) ms =
    att v {| a_pat := POr (map (fun ia => a_pat (snd ia)) ms); a_guard := a_guard a; a_body := a_body a |}.
  Proof. unfold att. cbn. induction ms as [|[i m] ms IH]; [reflexivity|]. cbn. rewrite map_app, IH. reflexivity. Qed.
  Lemma members_alike (ms : list (nat * arm)) v a : (forall i m, In (i, m) ms -> agree m a) ->
    Forall2 alike (flat_map (fun ia => att v (snd ia)) ms) (att v {| a_pat := POr (map (fun ia => a_pat (snd ia)) ms); a_guard := a_guard a; a_body := a_body a |}).
  Proof.
    intros H. rewrite <- or_attempts. induction ms as [|[i m] ms IH]; [constructor|]. cbn. apply Forall2_app; [|apply IH; intros j x J; apply (H j x); right; exact J].
    apply agree_alike. apply (H i m). left. reflexivity.
  Qed.
  Lemma sorted_weaken {X} (P Q : X -> X -> Prop) l : StronglySorted P l -> (forall x y, In x l -> In y l -> P x y -> Q x y) -> StronglySorted Q l.
  Proof.
    induction 1 as [|x l SS IH F]; intros H; constructor; [apply IH; intros y z Jy Jz; apply H; right; assumption|]. rewrite Forall_forall in *. intros y J. apply H; [left; reflexivity|right; exact J|exact (F y J)].
  Qed.
  Lemma sorted_app {X} (P : X -> X -> Prop) a b : StronglySorted P (a ++ b) -> StronglySorted P a /\ StronglySorted P b.
  Proof.
    induction a as [|x a IH]; intros H; [split; [constructor|exact H]|]. inversion H as [|? ? SS F]; subst. destruct (IH SS) as [A C]. split; [|exact C]. constructor; [exact A|].
    rewrite Forall_forall in *. intros y J. apply F, in_or_app. auto.
  Qed.

  Variable arms : list arm.
  Variable group : list (nat * arm).
  Definition member : nat * arm -> bool := is_in (map fst group).
  (** The group: some of the arms, in order. *)
  Hypothesis from_arms : group = filter member (enumerate 0 arms).
  Hypothesis agreeing : forall i a j b, In (i, a) group -> In (j, b) group -> agree a b.
  Lemma in_arms i a : In (i, a) group -> nth_error arms i = Some a.
  Proof. rewrite from_arms. intros J. apply filter_In in J. destruct J as [J _]. apply enum_in in J. rewrite Nat.sub_0_r in J. apply J. Qed.
  Lemma member_spec i a : member (i, a) = true <-> exists b, In (i, b) group.
  Proof. unfold member. rewrite is_in_spec, in_map_iff. split; [intros ([j b] & E & J); cbn in E; subst; eauto|]. intros [b J]. exists (i, b). auto. Qed.
  Lemma filter_nil {X} (m : X -> bool) l : (forall x, In x l -> m x = false) -> filter m l = [].
  Proof. induction l as [|x l IH]; intros H; [reflexivity|]. cbn. rewrite (H x (or_introl eq_refl)). apply IH. intros y J. apply H. right. exact J. Qed.

  (** ** Into the first *)
  Lemma merge_first i a rest : group = (i, a) :: rest ->
    (forall m b x c, In (m, b) group -> nth_error arms x = Some c -> member (x, c) = false -> i < x -> x < m -> disjoint c b) ->
    forall v s, run arms v s = run (edit arms (map fst rest) (Some (i, POr (map (fun ia => a_pat (snd ia)) group)))) v s.
  Proof.
    intros GE DIS v s. rewrite !run_attempts. apply alike_attempts. rewrite edit_attempts, (flat_enum _ arms 0).
    assert (JI : In (i, a) group) by (rewrite GE; left; reflexivity). pose proof (in_arms i a JI) as NI. destruct (enum_split arms i a NI) as (A & C & E & LA & LC).
    assert (EN : StronglySorted (fun a b => fst a < fst b) (enumerate 0 arms)) by apply enum_sorted.
    assert (INA : forall j y, In (j, y) (enumerate 0 arms) -> nth_error arms j = Some y) by (intros j y J; apply enum_in in J; rewrite Nat.sub_0_r in J; apply J).
    assert (FA : filter member A = [] /\ filter member C = rest /\ ~ In i (map fst rest)).
    { assert (X : filter member A ++ (i, a) :: filter member C = (i, a) :: rest).
      { pose proof (eq_trans (eq_sym from_arms) GE) as X. rewrite E, filter_app in X. cbn [filter] in X. replace (member (i, a)) with true in X; [exact X|]. symmetry. apply member_spec. eauto. }
      assert (Y : filter member A = []).
      { destruct (filter member A) as [|[j y] ys] eqn:Q; [reflexivity|]. assert (EQ : j = i) by (cbn in X; congruence). assert (J : In (j, y) A) by (apply (proj1 (filter_In member (j, y) A)); rewrite Q; left; reflexivity).
        pose proof (LA j y J) as LT. lia. }
      split; [exact Y|]. rewrite Y in X. injection X as X. split; [exact X|]. rewrite <- X. intros J. apply in_map_iff in J. destruct J as ([j y] & EQ & J). cbn in EQ. subst j. apply filter_In in J. destruct J as [J _]. apply LC in J. lia. }
    destruct FA as (FA & FC & NR). rewrite E, !flat_map_app. cbn [flat_map].
    assert (RM : forall x c, In (x, c) C -> is_in (map fst rest) (x, c) = member (x, c)).
    { intros x c J. apply eq_true_iff_eq. rewrite member_spec, is_in_spec, GE, in_map_iff. split.
      - intros ([j y] & EQ & Jy). cbn in EQ. subst j. exists y. right. exact Jy.
      - intros [y [EQ|Jy]]; [injection EQ as -> ->; apply LC in J; lia|]. exists (x, y). auto. }
    apply Forall2_app.
    - apply alike_eq, flat_ext. intros [j y] J. cbn [fst snd]. pose proof (LA j y J) as LT.
      assert (NM : member (j, y) = false) by (destruct (member (j, y)) eqn:Q; [|reflexivity]; assert (Z : In (j, y) (filter member A)) by (apply filter_In; auto); rewrite FA in Z; destruct Z).
      replace (is_in (map fst rest) (j, y)) with false; [replace (j =? i) with false; [reflexivity|symmetry; apply Nat.eqb_neq; lia]|].
      symmetry. destruct (is_in (map fst rest) (j, y)) eqn:Q; [|reflexivity]. apply is_in_spec in Q. enough (member (j, y) = true) by congruence. apply member_spec. apply in_map_iff in Q. destruct Q as ([j' y'] & EQ & Jy). cbn in EQ. subst j'.
      exists y'. rewrite GE. right. exact Jy.
    - cbn [fst snd]. replace (is_in (map fst rest) (i, a)) with false by (symmetry; apply not_true_iff_false; rewrite is_in_spec; exact NR). rewrite Nat.eqb_refl.
      rewrite (members_first (fun ia => att v (snd ia)) member C).
      + rewrite FC. rewrite (app_assoc (att v a)). apply Forall2_app.
        * change (att v a ++ flat_map (fun ia => att v (snd ia)) rest) with (flat_map (fun ia => att v (snd ia)) ((i, a) :: rest)). rewrite <- GE. apply members_alike. intros j m J. exact (agreeing j m i a J JI).
        * apply alike_eq. rewrite flat_filter. apply flat_ext.
          intros [x c] J. rewrite RM by exact J. cbn [fst snd]. pose proof (LC x c J). replace (x =? i) with false by (symmetry; apply Nat.eqb_neq; lia). destruct (member (x, c)); reflexivity.
      + rewrite E in EN. apply sorted_app in EN. destruct EN as [_ EN]. inversion EN as [|? ? EC _]; subst. apply (sorted_weaken _ _ _ EC). intros [x c] [m b] Jx Jm LT NM MM. cbn [fst snd] in *. apply att_disjoint.
        assert (Jm' : In (m, b) (enumerate 0 arms)) by (rewrite E; apply in_or_app; right; right; exact Jm). assert (Jx' : In (x, c) (enumerate 0 arms)) by (rewrite E; apply in_or_app; right; right; exact Jx).
        apply (DIS m b x c); [rewrite from_arms; apply filter_In; auto|apply INA, Jx'|exact NM|exact (LC x c Jx)|exact LT].
  Qed.

  (** ** Into the last *)
  Lemma last_split i a init : group = init ++ [(i, a)] ->
    (forall m b x c, In (m, b) group -> nth_error arms x = Some c -> member (x, c) = false -> m < x -> x < i -> disjoint b c) ->
    exists A C, enumerate 0 arms = A ++ (i, a) :: C /\ filter member A = init /\
      (forall x c, In (x, c) A -> x <> i /\ is_in (map fst init) (x, c) = member (x, c)) /\ is_in (map fst init) (i, a) = false /\
      (forall x c, In (x, c) C -> x <> i /\ is_in (map fst init) (x, c) = false) /\
      forall v, flat_map (fun ia => att v (snd ia)) A =
                flat_map (fun ia => if is_in (map fst init) ia then [] else att v (snd ia)) A ++ flat_map (fun ia => att v (snd ia)) init.
  Proof.
    intros GE DIS. assert (JI : In (i, a) group) by (rewrite GE; apply in_or_app; right; left; reflexivity). pose proof (in_arms i a JI) as NI. destruct (enum_split arms i a NI) as (A & C & E & LA & LC).
    assert (EN : StronglySorted (fun a b => fst a < fst b) (enumerate 0 arms)) by apply enum_sorted.
    assert (INA : forall j y, In (j, y) (enumerate 0 arms) -> nth_error arms j = Some y) by (intros j y J; apply enum_in in J; rewrite Nat.sub_0_r in J; apply J).
    assert (X : filter member A ++ (i, a) :: filter member C = init ++ [(i, a)]).
    { pose proof (eq_trans (eq_sym from_arms) GE) as X. rewrite E, filter_app in X. cbn [filter] in X. replace (member (i, a)) with true in X; [exact X|]. symmetry. apply member_spec. eauto. }
    assert (Y : filter member C = []).
    { assert (RV : rev (filter member A ++ (i, a) :: filter member C) = (i, a) :: rev init) by (rewrite X, rev_app_distr; reflexivity). rewrite rev_app_distr in RV. cbn in RV.
      destruct (rev (filter member C)) as [|[j y] ys] eqn:Q; [apply (f_equal (@rev (nat * arm))) in Q; rewrite rev_involutive in Q; exact Q|]. assert (EQ : j = i) by (cbn in RV; congruence).
      assert (J : In (j, y) C) by (apply (proj1 (filter_In member (j, y) C)), in_rev; rewrite Q; left; reflexivity). apply LC in J. lia. }
    rewrite Y in X. apply app_inj_tail in X. destruct X as [X _]. exists A, C. split; [exact E|]. split; [exact X|].
    assert (OUT : ~ In i (map fst init)).
    { rewrite <- X. intros J. apply in_map_iff in J. destruct J as ([j y] & EQ & J). cbn in EQ. subst j. apply filter_In in J. destruct J as [J _]. apply LA in J. lia. }
    assert (RM : forall x c, In (x, c) A -> is_in (map fst init) (x, c) = member (x, c)).
    { intros x c J. apply eq_true_iff_eq. rewrite member_spec, is_in_spec, GE, in_map_iff. split.
      - intros ([j y] & EQ & Jy). cbn in EQ. subst j. exists y. apply in_or_app. auto.
      - intros [y Jy]. apply in_app_or in Jy. destruct Jy as [Jy|[EQ|[]]]; [exists (x, y); auto|]. injection EQ as -> ->. apply LA in J. lia. }
    split; [intros x c J; split; [pose proof (LA x c J); lia|apply RM, J]|]. split; [apply not_true_iff_false; rewrite is_in_spec; exact OUT|]. split.
    { intros x c J. split; [pose proof (LC x c J); lia|]. apply not_true_iff_false. rewrite is_in_spec. intros Q. rewrite <- X in Q. apply in_map_iff in Q. destruct Q as ([j y] & EQ & Jy). cbn in EQ. subst j.
      apply filter_In in Jy. destruct Jy as [Jy _]. apply LA in Jy. apply LC in J. lia. }
    intros v. rewrite (members_last (fun ia => att v (snd ia)) member A).
    - rewrite X. f_equal. rewrite flat_filter. apply flat_ext. intros [x c] J. rewrite RM by exact J. destruct (member (x, c)); reflexivity.
    - rewrite E in EN. apply sorted_app in EN. destruct EN as [EN _]. apply (sorted_weaken _ _ _ EN). intros [m b] [x c] Jm Jx LT MM NM. cbn [fst snd] in *. apply att_disjoint.
      assert (Jm' : In (m, b) (enumerate 0 arms)) by (rewrite E; apply in_or_app; left; exact Jm). assert (Jx' : In (x, c) (enumerate 0 arms)) by (rewrite E; apply in_or_app; left; exact Jx).
      apply (DIS m b x c); [rewrite from_arms; apply filter_In; auto|apply INA, Jx'|exact NM|exact LT|exact (LA x c Jx)].
  Qed.
  Lemma merge_last i a init : group = init ++ [(i, a)] ->
    (forall m b x c, In (m, b) group -> nth_error arms x = Some c -> member (x, c) = false -> m < x -> x < i -> disjoint b c) ->
    forall v s, run arms v s = run (edit arms (map fst init) (Some (i, POr (map (fun ia => a_pat (snd ia)) group)))) v s.
  Proof.
    intros GE DIS v s. rewrite !run_attempts. apply alike_attempts. rewrite edit_attempts, (flat_enum _ arms 0). destruct (last_split i a init GE DIS) as (A & C & E & FA & HA & HI & HC & P).
    rewrite E, !flat_map_app. cbn [flat_map fst snd]. rewrite HI, Nat.eqb_refl, P, <- app_assoc. apply Forall2_app.
    - apply alike_eq, flat_ext. intros [x c] J. destruct (HA x c J) as [N _]. cbn [fst snd]. apply Nat.eqb_neq in N. rewrite N. reflexivity.
    - rewrite app_assoc. apply Forall2_app.
      + replace (flat_map (fun ia => att v (snd ia)) init ++ att v a) with (flat_map (fun ia => att v (snd ia)) group) by (rewrite GE, flat_map_app; cbn; rewrite app_nil_r; reflexivity).
        apply members_alike. intros j m J. apply (agreeing j m i a J). rewrite GE. apply in_or_app. right. left. reflexivity.
      + apply alike_eq, flat_ext. intros [x c] J. destruct (HC x c J) as [N Q]. cbn [fst snd]. rewrite Q. apply Nat.eqb_neq in N. rewrite N. reflexivity.
  Qed.
  (** ** Leaving it to the wildcard *)
  Lemma remove_wild i a init : group = init ++ [(i, a)] ->
    (forall m b x c, In (m, b) group -> nth_error arms x = Some c -> member (x, c) = false -> m < x -> x < i -> disjoint b c) ->
    (forall j b, In (j, b) group -> a_guard b = None /\ forall v w, In w (ways (a_pat b) v) -> w = []) -> (forall v, ways (a_pat a) v <> []) ->
    forall v s, run arms v s = run (edit arms (map fst init) None) v s.
  Proof.
    intros GE DIS PL ALL v s. rewrite !run_attempts. rewrite edit_attempts, (flat_enum _ arms 0). destruct (last_split i a init GE DIS) as (A & C & E & FA & HA & HI & HC & P).
    assert (JI : In (i, a) group) by (rewrite GE; apply in_or_app; right; left; reflexivity).
    rewrite E, !flat_map_app. cbn [flat_map fst snd]. rewrite HI, P, <- app_assoc.
    rewrite (flat_ext (fun ia => if is_in (map fst init) ia then [] else att v (snd ia)) (fun ia => att v (snd ia)) C) by (intros [x c] J; destruct (HC x c J) as [_ Q]; rewrite Q; reflexivity).
    generalize (flat_map (fun ia => if is_in (map fst init) ia then [] else att v (snd ia)) A). generalize (flat_map (fun ia => att v (snd ia)) C). intros post pre.
    assert (K : forall s, attempts (flat_map (fun ia => att v (snd ia)) init ++ att v a ++ post) s = attempts (att v a ++ post) s).
    { clear s. intros s. destruct (PL i a JI) as [GA WA]. specialize (ALL v). assert (LST : attempts (att v a ++ post) s = Ran (body_ (a_body a) [] s)).
      { unfold att. destruct (ways (a_pat a) v) as [|w ws] eqn:Q; [contradiction|]. cbn. rewrite GA. rewrite (WA v w); [reflexivity|]. rewrite Q. left. reflexivity. }
      destruct (flat_map (fun ia => att v (snd ia)) init) as [|[[g b] w] l] eqn:Q; [reflexivity|]. rewrite LST.
      assert (J : In (g, b, w) (flat_map (fun ia => att v (snd ia)) init)) by (rewrite Q; left; reflexivity). apply in_flat_map in J. destruct J as ([m x] & Jm & J). unfold att in J. cbn [snd] in J. apply in_map_iff in J.
      destruct J as (w' & EQ & J). injection EQ as <- <- <-. assert (Jg : In (m, x) group) by (rewrite GE; apply in_or_app; auto). destruct (PL m x Jg) as [GX WX]. cbn. rewrite GX. rewrite (WX v w' J).
      destruct (agreeing m x i a Jg JI) as [_ H]. rewrite H. reflexivity. }
    clear -K. revert s. induction pre as [|[[g b] w] pre IH]; intros s; [apply K|]. cbn. destruct g as [g|]; [|reflexivity]. destruct (guard_ g w s) as [[[|] s']|]; auto.
  Qed.
End Merge.
