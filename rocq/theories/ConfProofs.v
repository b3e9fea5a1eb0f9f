(** Proofs about MSRV tracking, lists, keys and the file search of ConfModel.v. *)
From Coq Require Import List String Ascii Arith Bool Lia Permutation.
From Verif Require Import CliModel ConfModel ConfSpec.
Import ListNotations.
Local Open Scope nat_scope.
Local Open Scope list_scope.

(** ** MSRV *)
Section M.
Variable pv : string -> option version.

Lemma parse_declares : forall attrs v, parse_attrs pv attrs = Some v <-> declares pv attrs v.
Proof.
  unfold parse_attrs. induction attrs as [|[b o] attrs IH]; intros v; cbn.
  - split; [discriminate|inversion 1].
  - destruct b; cbn.
    + destruct o as [s|]; split; intros H; try discriminate.
      * now constructor.
      * now inversion H; subst.
      * inversion H.
    + rewrite IH. split; intros H; [now constructor|now inversion H].
Qed.

Lemma parse_none : forall attrs, parse_attrs pv attrs = None <-> forall v, ~ declares pv attrs v.
Proof.
  intros attrs. split.
  - intros H v D. apply parse_declares in D. congruence.
  - intros H. destruct (parse_attrs pv attrs) as [v|] eqn:E; [|reflexivity].
    apply parse_declares in E. now apply H in E.
Qed.

Lemma for_attrs_none : forall conf chain,
  (forall a, In a chain -> parse_attrs pv a = None) -> for_attrs pv conf chain = conf.
Proof.
  induction chain as [|a chain IH]; intros H; cbn; [reflexivity|].
  rewrite H by now left. apply IH. intros b Hb. apply H. now right.
Qed.

Lemma for_attrs_app : forall conf a b,
  for_attrs pv conf (a ++ b) = for_attrs pv (for_attrs pv conf b) a.
Proof.
  induction a as [|x a IH]; intros b; cbn; [reflexivity|].
  destruct (parse_attrs pv x); [reflexivity|apply IH].
Qed.

Lemma in_force_iff : forall conf chain o, in_force pv conf chain o <-> o = for_attrs pv conf chain.
Proof.
  intros conf chain o. split.
  - intros H. inversion H as [c Hn|inner attrs outer v Hn Hd]; subst.
    + symmetry. apply for_attrs_none. intros a Ha. apply parse_none. intros v. now apply Hn.
    + rewrite for_attrs_app. cbn. apply parse_declares in Hd. rewrite Hd.
      symmetry. apply for_attrs_none. intros a Ha. apply parse_none. intros w. now apply Hn.
  - intros ->. induction chain as [|a chain IH]; cbn.
    + constructor. intros ? ? [].
    + destruct (parse_attrs pv a) as [v|] eqn:E.
      * change (a :: chain) with ([] ++ a :: chain). constructor; [intros ? ? []|].
        now apply parse_declares.
      * assert (N : forall w, ~ declares pv a w) by now apply parse_none.
        remember (for_attrs pv conf chain) as o eqn:Eo. clear Eo.
        destruct IH as [chain Hn|inner attrs outer v Hn Hd].
        -- apply force_conf. intros b w [<- | Hb]; [apply N|now apply Hn].
        -- change (a :: inner ++ attrs :: outer) with ((a :: inner) ++ attrs :: outer).
           constructor; [|assumption]. intros b w [<- | Hb]; [apply N|now apply Hn].
Qed.

(** Induction over trees with a hypothesis for every child. *)
Lemma tree_ind_all : forall (P : tree -> Prop),
  (forall id attrs children, (forall c, In c children -> P c) -> P (Node id attrs children)) ->
  forall t, P t.
Proof.
  intros P H. fix F 1. intros [id attrs children]. apply H.
  induction children as [|c cs IH]; intros x Hx; [destruct Hx|].
  destruct Hx as [<- | Hx]; [apply F|now apply IH].
Qed.

Fixpoint run_all (st : msrv_stack) (seen : bool) (ts : list tree)
  : msrv_stack * bool * list (nat * option version) :=
  match ts with
  | [] => (st, seen, [])
  | t :: ts =>
      let '(st', seen', v) := early_run pv st seen t in
      let '(st'', seen'', vs) := run_all st' seen' ts in
      (st'', seen'', v ++ vs)
  end.

Lemma early_run_node : forall st seen id attrs children,
  early_run pv st seen (Node id attrs children) =
  let '(st1, seen1) := check_attributes pv st seen attrs in
  let '(st2, seen2, vis) := run_all st1 seen1 children in
  (check_attributes_post pv st2 attrs, seen2,
   (id, stack_current st1) :: vis ++ [(id, stack_current st2)]).
Proof. reflexivity. Qed.

Definition seen_ok (seen seen' : bool) (P : Prop) : Prop := seen' = true <-> (seen = true \/ P).

Definition run_ok (t : tree) : Prop := forall st seen,
  exists seen' vis, early_run pv st seen t = (st, seen', vis) /\
    (forall i o, In (i, o) vis <-> exists chain, occurs_at t chain i /\ o = for_attrs pv (hd_error st) chain) /\
    seen_ok seen seen' (exists chain i a, occurs_at t chain i /\ In a chain /\ parse_attrs pv a <> None).

Lemma run_all_ok : forall ts, (forall c, In c ts -> run_ok c) -> forall st seen,
  exists seen' vis, run_all st seen ts = (st, seen', vis) /\
    (forall i o, In (i, o) vis <-> exists c chain, In c ts /\ occurs_at c chain i /\ o = for_attrs pv (hd_error st) chain) /\
    seen_ok seen seen' (exists c chain i a, In c ts /\ occurs_at c chain i /\ In a chain /\ parse_attrs pv a <> None).
Proof.
  induction ts as [|t ts IH]; intros H st seen; cbn.
  - exists seen, []. split; [reflexivity|]. split.
    + intros i o. split; [intros []|intros (c & ch & [] & _)].
    + unfold seen_ok. split; [auto|]. intros [E|(c & ? & ? & ? & [] & _)]; assumption.
  - destruct (H t (or_introl eq_refl) st seen) as (s1 & v1 & E1 & V1 & S1). rewrite E1.
    destruct (IH (fun c Hc => H c (or_intror Hc)) st s1) as (s2 & v2 & E2 & V2 & S2). rewrite E2.
    exists s2, (v1 ++ v2). split; [reflexivity|]. split.
    + intros i o. rewrite in_app_iff, V1, V2. split.
      * intros [(ch & O & F)|(c & ch & I & O & F)]; [exists t, ch|exists c, ch]; auto.
      * intros (c & ch & [<- | I] & O & F); [left; now exists ch|right; exists c, ch; auto].
    + unfold seen_ok in *. rewrite S2, S1. split.
      * intros [[E|(ch & i & a & O & A & N)]|(c & ch & i & a & I & O & A & N)]; [now left| |];
          right; [exists t, ch, i, a|exists c, ch, i, a]; auto.
      * intros [E|(c & ch & i & a & [<- | I] & O & A & N)]; [auto| |].
        -- left. right. exists ch, i, a. auto.
        -- right. exists c, ch, i, a. auto.
Qed.

Lemma early_run_ok : forall t, run_ok t.
Proof.
  apply tree_ind_all. intros id attrs children IH st seen. rewrite early_run_node.
  unfold check_attributes, check_attributes_post.
  set (st1 := match parse_attrs pv attrs with Some v => v :: st | None => st end).
  set (seen1 := match parse_attrs pv attrs with Some v => true | None => seen end).
  assert (Hd : hd_error st1 = for_attrs pv (hd_error st) [attrs])
    by (unfold st1; cbn; now destruct (parse_attrs pv attrs)).
  destruct (run_all_ok children IH st1 seen1) as (s2 & vis & E & V & S).
  exists s2, ((id, stack_current st1) :: vis ++ [(id, stack_current st1)]). split.
  { unfold st1, seen1 in *. destruct (parse_attrs pv attrs); rewrite E; reflexivity. }
  split.
  - intros i o. cbn [In]. rewrite in_app_iff. cbn [In]. rewrite V. unfold stack_current. rewrite Hd. split.
    + assert (R : forall i o, (id, for_attrs pv (hd_error st) [attrs]) = (i, o) ->
        exists chain, occurs_at (Node id attrs children) chain i /\ o = for_attrs pv (hd_error st) chain).
      { intros ? ? [= <- <-]. exists [attrs]. split; [constructor|reflexivity]. }
      intros [R1|[(c & ch & I & O & F)|[R1|[]]]]; [now apply R| |now apply R].
      exists (ch ++ [attrs]). split; [now apply occurs_below with c|].
      now rewrite for_attrs_app.
    + intros (ch & O & F). inversion O as [|? ? ? c ch' ? I O' ]; subst; [now left|].
      right. left. exists c, ch'. rewrite for_attrs_app. auto.
  - unfold seen_ok in *. rewrite S. unfold seen1. split.
    + intros [E1|(c & ch & i & a & I & O & A & N)].
      * destruct (parse_attrs pv attrs) eqn:P; [|now left]. right.
        exists [attrs], id, attrs. split; [constructor|]. split; [now left|congruence].
      * right. exists (ch ++ [attrs]), i, a. split; [now apply occurs_below with c|].
        split; [apply in_app_iff; now left|assumption].
    + intros [E1|(ch & i & a & O & A & N)].
      * left. now destruct (parse_attrs pv attrs).
      * destruct (parse_attrs pv attrs) eqn:P; [now left|].
        inversion O as [|? ? ? c ch' ? I O' ]; subst.
        -- destruct A as [<- | []]. congruence.
        -- apply in_app_iff in A as [A|[<- | []]]; [|congruence].
           right. exists c, ch', i, a. auto.
Qed.

Lemma early_correct : forall conf t,
  exists seen vis, early_run pv (stack_from conf) false t = (stack_from conf, seen, vis) /\
    forall i o, In (i, o) vis <-> exists chain, occurs_at t chain i /\ in_force pv conf chain o.
Proof.
  intros conf t. destruct (early_run_ok t (stack_from conf) false) as (s & vis & E & V & _).
  exists s, vis. split; [assumption|]. intros i o. rewrite V.
  assert (H : hd_error (stack_from conf) = conf) by now destruct conf.
  rewrite H. split; intros (ch & O & F); exists ch; (split; [assumption|]); now apply in_force_iff.
Qed.

Lemma late_correct : forall conf t seen vis st,
  early_run pv (stack_from conf) false t = (st, seen, vis) ->
  forall chain i o, occurs_at t chain i ->
  (msrv_at pv seen conf chain = o <-> in_force pv conf chain o).
Proof.
  intros conf t seen vis st E chain i o O.
  destruct (early_run_ok t (stack_from conf) false) as (s & vis' & E' & _ & S).
  rewrite E' in E. injection E as _ <- _. rewrite in_force_iff. unfold msrv_at.
  destruct s; [split; congruence|].
  replace (for_attrs pv conf chain) with conf; [split; congruence|].
  symmetry. apply for_attrs_none. intros a Ha.
  destruct (parse_attrs pv a) eqn:P; [|reflexivity].
  unfold seen_ok in S. assert (false = true); [|discriminate].
  apply S. right. exists chain, i, a. repeat split; auto. congruence.
Qed.

Lemma version_leb_le : forall a b, version_leb a b = true <-> version_le a b.
Proof.
  intros [[a1 a2] a3] [[b1 b2] b3]. unfold version_leb.
  rewrite orb_true_iff, andb_true_iff, orb_true_iff, andb_true_iff.
  rewrite !Nat.ltb_lt, !Nat.eqb_eq, Nat.leb_le. split.
  - intros [H|[-> [H|[-> H]]]]; [now apply vle_major|now apply vle_minor|now apply vle_patch].
  - inversion 1; subst; auto.
Qed.

Lemma version_eqb_eq : forall a b, version_eqb a b = true <-> a = b.
Proof.
  intros [[a1 a2] a3] [[b1 b2] b3]. unfold version_eqb. rewrite !andb_true_iff, !Nat.eqb_eq. split.
  - now intros [[-> ->] ->].
  - now intros [= -> -> ->].
Qed.

Lemma find_filter_hd : forall (A : Type) (f : A -> bool) l, List.find f l = hd_error (filter f l).
Proof. induction l as [|x l IH]; cbn; [reflexivity|]. destruct (f x); [reflexivity|assumption]. Qed.

Lemma filter_nil_iff : forall (A : Type) (f : A -> bool) l,
  filter f l = [] <-> forall x, In x l -> f x = false.
Proof.
  induction l as [|x l IH]; cbn.
  - split; [intros _ ? []|reflexivity].
  - destruct (f x) eqn:E; split; try discriminate.
    + intros H. rewrite H in E by now left. discriminate.
    + intros H y [<- | Hy]; [assumption|]. now apply IH.
    + intros H. apply IH. intros y Hy. apply H. now right.
Qed.

Lemma filter_single : forall (A : Type) (f : A -> bool) l x,
  filter f l = [x] <-> exists a b, l = a ++ x :: b /\ f x = true /\ forall y, In y (a ++ b) -> f y = false.
Proof.
  induction l as [|y l IH]; intros x; cbn.
  - split; [discriminate|]. intros ([|? ?] & b & E & _); discriminate.
  - destruct (f y) eqn:E; split.
    + intros [= -> H]. exists [], l. split; [reflexivity|]. split; [assumption|].
      now apply filter_nil_iff.
    + intros ([|z a] & b & Q & F & N); cbn in Q; injection Q as -> ->.
      * f_equal. now apply filter_nil_iff.
      * rewrite N in E by now left. discriminate.
    + intros H. apply IH in H as (a & b & -> & F & N). exists (y :: a), b.
      repeat split; auto. intros z [<- | Hz]; auto.
    + intros ([|z a] & b & Q & F & N); cbn in Q; injection Q as -> ->; [congruence|].
      apply IH. exists a, b. repeat split; auto. intros w Hw. apply N. now right.
Qed.

Lemma check_attrs_ok : forall attrs, check_attrs pv attrs = [] <-> well_formed_attrs pv attrs.
Proof.
  intros attrs. unfold check_attrs, well_formed_attrs.
  destruct (filter is_msrv attrs) as [|a more] eqn:F.
  - split; [|reflexivity]. intros _. left. now apply filter_nil_iff.
  - split.
    + intros H. destruct more; [|discriminate]. cbn in H.
      destruct (value_str a) as [s|] eqn:VS; [|discriminate].
      destruct (pv s) as [v|] eqn:PV; [|discriminate]. right.
      apply filter_single in F as (b & c & -> & M & N).
      destruct a as [m o]. cbn in *. subst. exists b, s, v, c. auto.
    + intros [H|(b & s & v & c & -> & PV & N)].
      * apply filter_nil_iff in H. congruence.
      * assert (filter is_msrv (b ++ mk_attr true (Some s) :: c) = [mk_attr true (Some s)]) as Q.
        { apply filter_single. exists b, c. auto. }
        rewrite Q in F. injection F as <- <-. cbn. now rewrite PV.
Qed.

Lemma well_formed_used : forall attrs a, well_formed_attrs pv attrs -> In a attrs -> is_msrv a = true ->
  exists s v, value_str a = Some s /\ pv s = Some v /\ declares pv attrs v.
Proof.
  intros attrs a [H|(b & s & v & c & -> & PV & N)] I M; [rewrite H in M by assumption; discriminate|].
  apply in_app_iff in I as [I|[<- | I]].
  - rewrite N in M; [discriminate|apply in_app_iff; now left].
  - exists s, v. repeat split; auto. clear M.
    induction b as [|x b IH]; cbn; [now constructor|]. destruct x as [m o].
    replace m with false.
    + constructor. apply IH. intros y Hy. apply N. now right.
    + symmetry. apply (N (mk_attr m o)). now left.
  - rewrite N in M; [discriminate|apply in_app_iff; now right].
Qed.
End M.

(** ** Lists *)
Section A.
Context {V T D : Type}.
Variable deser : toml V -> option T * list D.

Definition is_dots (x : toml V) : bool := match x with TStr s => String.eqb s ".." | _ => false end.

Lemma is_dots_eq : forall x, is_dots x = true <-> x = TStr "..".
Proof.
  intros [s|v|l]; cbn; split; try discriminate.
  - intros H. apply String.eqb_eq in H. now subst.
  - intros [= ->]. reflexivity.
Qed.

Lemma array_loop_ok : forall l h, exists r ds,
  array_loop deser h l = (h || existsb is_dots l, r, ds) /\ entries deser l r /\
  List.length (filter (fun d => match d with DupDots => true | _ => false end) ds)
    = List.length (filter is_dots l) - (if h then 0 else 1) /\
  ~ In NotArray ds /\
  (forall d, In (ElemDiag d) ds <-> exists x, In x l /\ x <> TStr ".." /\ In d (snd (deser x))).
Proof.
  induction l as [|x l IH]; intros h; cbn [array_loop].
  - exists [], []. cbn. rewrite orb_false_r. split; [reflexivity|]. split; [constructor|].
    split; [now destruct h|]. split; [tauto|]. intros d. split; [tauto|intros (x & F & _); exact F].
  - change (match x with TStr s => String.eqb s ".." | _ => false end) with (is_dots x).
    destruct (is_dots x) eqn:E.
    + destruct (IH true) as (r & ds & -> & R & C & N & DD). apply is_dots_eq in E as ->.
      exists r, ((if h then [DupDots] else []) ++ ds). 
      assert (B : is_dots (@TStr V "..") = true) by reflexivity.
      cbn [existsb filter]. rewrite B. cbn [orb]. rewrite orb_true_r.
      split; [reflexivity|]. split; [now constructor|]. split.
      { rewrite filter_app, app_length, C. cbn [List.length]. destruct h; cbn; lia. }
      split.
      { rewrite in_app_iff. intros [H|H]; [destruct h; [destruct H as [H|[]]; discriminate|destruct H]|now apply N]. }
      intros d. rewrite in_app_iff, DD. split.
      * intros [H|(x & I & Q)]; [destruct h; [destruct H as [H|[]]; discriminate|destruct H]|].
        exists x. split; [now right|assumption].
      * intros (x & [<- | I] & Q1 & Q2); [congruence|]. right. exists x. auto.
    + destruct (IH h) as (r & ds & Q & R & C & N & DD).
      assert (X : x <> TStr "..") by (intros ->; cbn in E; discriminate).
      destruct (deser x) as [o dd] eqn:DX. rewrite Q.
      exists (match o with Some t => t :: r | None => r end), (map ElemDiag dd ++ ds).
      cbn [existsb filter]. rewrite E. cbn [orb]. split; [reflexivity|]. split.
      { destruct o as [t|]; [apply entries_good|apply entries_bad]; auto; now rewrite DX. }
      split.
      { rewrite filter_app, app_length, C.
        replace (filter _ (map ElemDiag dd)) with (@nil (array_diag D)); [reflexivity|].
        symmetry. apply filter_nil_iff. intros y Hy. apply in_map_iff in Hy as (z & <- & _). reflexivity. }
      split.
      { rewrite in_app_iff. intros [H|H]; [|now apply N]. apply in_map_iff in H as (z & ? & _). discriminate. }
      intros d. rewrite in_app_iff, DD. split.
      * intros [H|(y & I & P)].
        -- apply in_map_iff in H as (z & [= ->] & Hz). exists x. rewrite DX. split; [now left|auto].
        -- exists y. split; [now right|assumption].
      * intros (y & [<- | I] & P1 & P2).
        -- left. rewrite DX in P2. apply in_map_iff. exists d. auto.
        -- right. exists y. auto.
Qed.
End A.

(** ** Keys *)
Section K.
Context {V W D : Type}.
Variable deser : string -> V -> W * list D.
Variable default : string -> W.
Variable tbl : list entry.
Hypothesis OK : table_ok tbl.

Lemma lookup_some : forall s e, lookup_entry tbl s = Some e -> In e tbl /\ e_name e = s.
Proof.
  unfold lookup_entry. intros s e H. apply find_some in H as [H E]. apply String.eqb_eq in E. auto.
Qed.

Lemma lookup_none : forall s, lookup_entry tbl s = None -> ~ In s (map e_name tbl).
Proof.
  unfold lookup_entry. intros s H I. apply in_map_iff in I as (e & <- & I).
  apply find_none with (x := e) in H; [|assumption]. now rewrite String.eqb_refl in H.
Qed.

Lemma nodup_map_in : forall (A B : Type) (f : A -> B) l a b,
  NoDup (map f l) -> In a l -> In b l -> f a = f b -> a = b.
Proof.
  induction l as [|x l IH]; intros a b N Ia Ib E; [destruct Ia|].
  cbn in N. inversion N as [|? ? Nx N']; subst. destruct Ia as [<- | Ia], Ib as [<- | Ib]; auto.
  - exfalso. apply Nx. rewrite E. now apply in_map.
  - exfalso. apply Nx. rewrite <- E. now apply in_map.
Qed.

Lemma lookup_in : forall e, In e tbl -> lookup_entry tbl (e_name e) = Some e.
Proof.
  intros e I. destruct (lookup_entry tbl (e_name e)) as [e'|] eqn:L.
  - apply lookup_some in L as [I' E]. f_equal. eapply nodup_map_in; eauto. apply (ok_distinct _ OK).
  - apply lookup_none in L. exfalso. apply L. now apply in_map.
Qed.

(** What one key does, in closed form. *)
Definition key_effect (d : @doc V) (key : string) (value : V) : option (string * W) * list (conf_diag D) :=
  match lookup_entry tbl key with
  | None => if String.eqb key "third-party" then (None, []) else (None, [UnknownKey key])
  | Some e =>
      if e_typed e then
        let '(w, ds) := deser key value in (Some (key, w), map (ValueDiag key) ds)
      else
        let n := match e_rename e with Some n => n | None => key end in
        if has_key d n then (None, [DeprecatedKey key n false; DuplicateKey key n])
        else let '(w, ds) := deser n value in
             (Some (n, w), DeprecatedKey key n true :: map (ValueDiag n) ds)
  end.

Lemma key_loop_ok : forall fuel d key value s e, lookup_entry tbl key = Some e ->
  key_loop deser (S (S fuel)) tbl d key value (Fld e) s =
  Some (match fst (key_effect d key value) with Some (k, w) => set_slot s k w | None => s end,
        snd (key_effect d key value)).
Proof.
  intros fuel d key value s e L. unfold key_effect. rewrite L.
  pose proof (lookup_some _ _ L) as [I N]. cbn [key_loop]. rewrite N. subst key.
  destruct (e_typed e) eqn:T.
  - destruct (deser (e_name e) value) as [w ds]. reflexivity.
  - destruct (ok_renamed _ OK e I T) as (e' & R & I' & T').
    cbn [new_field]. rewrite R. unfold conf_parse. rewrite (lookup_in e' I'). cbn [conf_name].
    destruct (has_key d (e_name e')) eqn:K; cbn [negb]; [reflexivity|].
    rewrite T'. destruct (deser (e_name e') value) as [w ds]. reflexivity.
Qed.

Lemma keys_loop_ok : forall d todo s,
  keys_loop deser tbl d todo s =
  Some (fold_left (fun s kv => match fst (key_effect d (fst kv) (snd kv)) with
                               | Some (k, w) => set_slot s k w | None => s end) todo s,
        flat_map (fun kv => snd (key_effect d (fst kv) (snd kv))) todo).
Proof.
  induction todo as [|[key value] todo IH]; intros s; [reflexivity|].
  cbn [keys_loop fold_left flat_map fst snd]. unfold conf_parse.
  destruct (lookup_entry tbl key) as [e|] eqn:L.
  - rewrite (key_loop_ok (List.length tbl) d key value s e L), IH. reflexivity.
  - assert (E : key_effect d key value =
       if String.eqb key "third-party" then (None, []) else (None, [UnknownKey key])).
    { unfold key_effect. now rewrite L. }
    rewrite E. destruct (String.eqb key "third-party"); cbn [fst snd].
    + cbn [key_loop]. rewrite IH. reflexivity.
    + rewrite IH. reflexivity.
Qed.

Lemma has_key_in : forall (d : @doc V) k, has_key d k = true <-> In k (map fst d).
Proof.
  intros d k. unfold has_key. rewrite existsb_exists. split.
  - intros ([k' v] & I & E). cbn in E. apply String.eqb_eq in E. subst. apply in_map_iff. exists (k, v). auto.
  - intros I. apply in_map_iff in I as ([k' v] & <- & I). exists (k', v). split; [assumption|apply String.eqb_refl].
Qed.

Lemma fold_slots : forall (eff : string * V -> option (string * W)) todo s k,
  (forall a b, In a todo -> In b todo ->
     match eff a, eff b with Some (ka, _), Some (kb, _) => ka = kb -> a = b | _, _ => True end) ->
  match fold_left (fun s kv => match eff kv with Some (k, w) => set_slot s k w | None => s end) todo s k with
  | Some w => (exists kv, In kv todo /\ eff kv = Some (k, w)) \/
              ((forall kv w', In kv todo -> eff kv <> Some (k, w')) /\ s k = Some w)
  | None => (forall kv w', In kv todo -> eff kv <> Some (k, w')) /\ s k = None
  end.
Proof.
  intros eff todo. induction todo as [|a todo IH]; intros s k U; cbn [fold_left].
  - destruct (s k) as [w|] eqn:E; [right|]; split; auto; now intros ? ? [].
  - assert (U' : forall x y, In x todo -> In y todo ->
      match eff x, eff y with Some (ka, _), Some (kb, _) => ka = kb -> x = y | _, _ => True end)
      by (intros; apply U; now right).
    specialize (IH (match eff a with Some (k, w) => set_slot s k w | None => s end) k U').
    set (R := fold_left (A := @slots W) _ todo _) in *. destruct (R k) as [w|].
    + destruct IH as [(kv & I & E)|[N E]]; [left; exists kv; auto using in_cons|].
      destruct (eff a) as [[ka wa]|] eqn:Ea.
      * unfold set_slot in E. destruct (String.eqb ka k) eqn:Q.
        -- apply String.eqb_eq in Q as ->. injection E as ->. left. exists a. split; [now left|assumption].
        -- right. split; [|assumption]. intros kv w' [<- | I] H; [|now apply N in H].
           rewrite Ea in H. injection H as <- _. now rewrite String.eqb_refl in Q.
      * right. split; [|assumption]. intros kv w' [<- | I] H; [congruence|now apply N in H].
    + destruct IH as [N E]. destruct (eff a) as [[ka wa]|] eqn:Ea.
      * unfold set_slot in E. destruct (String.eqb ka k) eqn:Q; [discriminate|].
        split; [|assumption]. intros kv w' [<- | I] H; [|now apply N in H].
        rewrite Ea in H. injection H as <- _. now rewrite String.eqb_refl in Q.
      * split; [|assumption]. intros kv w' [<- | I] H; [congruence|now apply N in H].
Qed.

Definition eff_of (d : @doc V) (kv : string * V) := fst (key_effect d (fst kv) (snd kv)).

Lemma eff_of_inj : forall d, NoDup (map fst d) -> forall a b, In a d -> In b d ->
  match eff_of d a, eff_of d b with Some (ka, _), Some (kb, _) => ka = kb -> a = b | _, _ => True end.
Proof.
  intros d ND [ka va] [kb vb] Ia Ib. unfold eff_of, key_effect. cbn [fst snd].
  assert (Ka : In ka (map fst d)) by (apply in_map_iff; now exists (ka, va)).
  assert (Kb : In kb (map fst d)) by (apply in_map_iff; now exists (kb, vb)).
  assert (same : ka = kb -> (ka, va) = (kb, vb))
    by (intros ->; eapply nodup_map_in with (f := fst); eauto).
  destruct (lookup_entry tbl ka) as [ea|] eqn:La; [|destruct (String.eqb ka "third-party"); exact I].
  destruct (lookup_entry tbl kb) as [eb|] eqn:Lb;
    [|destruct (String.eqb kb "third-party"); cbn; destruct (fst _) as [[? ?]|]; exact I].
  pose proof (lookup_some _ _ La) as [Ja Na]. pose proof (lookup_some _ _ Lb) as [Jb Nb].
  destruct (e_typed ea) eqn:Ta, (e_typed eb) eqn:Tb.
  - destruct (deser ka va), (deser kb vb). cbn. assumption.
  - destruct (deser ka va). destruct (ok_renamed _ OK eb Jb Tb) as (e' & R & I' & T'). rewrite R.
    destruct (has_key d (e_name e')) eqn:K; cbn; [exact I|]. destruct (deser (e_name e') vb). cbn.
    intros ->. apply has_key_in in Ka. congruence.
  - destruct (deser kb vb). destruct (ok_renamed _ OK ea Ja Ta) as (e' & R & I' & T'). rewrite R.
    destruct (has_key d (e_name e')) eqn:K; cbn; [exact I|]. destruct (deser (e_name e') va). cbn.
    intros <-. apply has_key_in in Kb. congruence.
  - destruct (ok_renamed _ OK ea Ja Ta) as (e1 & R1 & I1 & T1).
    destruct (ok_renamed _ OK eb Jb Tb) as (e2 & R2 & I2 & T2). rewrite R1, R2.
    destruct (has_key d (e_name e1)); cbn; [exact I|]. destruct (deser (e_name e1) va). cbn.
    destruct (has_key d (e_name e2)); cbn; [exact I|]. destruct (deser (e_name e2) vb). cbn.
    intros E. apply same. rewrite <- Na, <- Nb. f_equal.
    eapply (ok_injective _ OK ea eb (e_name e1)); eauto. now rewrite E.
Qed.

Lemma conf_total : forall d, exists c ds, conf_deserialize deser default tbl d = Some (c, ds).
Proof. intros d. unfold conf_deserialize. rewrite keys_loop_ok. eauto. Qed.

Lemma conf_value : forall d c ds, NoDup (map fst d) -> conf_deserialize deser default tbl d = Some (c, ds) ->
  forall k, (exists kv w, In kv d /\ eff_of d kv = Some (k, w) /\ c k = w) \/
            ((forall kv w, In kv d -> eff_of d kv <> Some (k, w)) /\ c k = default k).
Proof.
  intros d c ds ND H k. unfold conf_deserialize in H. rewrite keys_loop_ok in H. injection H as <- <-.
  pose proof (fold_slots (eff_of d) d (fun _ => None) k (eff_of_inj d ND)) as F.
  unfold eff_of in *. set (R := fold_left (A := @slots W) _ d _) in *. destruct (R k) as [w|].
  - destruct F as [(kv & I & E)|[_ E]]; [|discriminate]. left. exists kv, w. auto.
  - right. destruct F as [N _]. auto.
Qed.

Lemma conf_value_eq : forall d c ds, NoDup (map fst d) -> conf_deserialize deser default tbl d = Some (c, ds) ->
  forall kv k w, In kv d -> eff_of d kv = Some (k, w) -> c k = w.
Proof.
  intros d c ds ND H kv k w I E. destruct (conf_value d c ds ND H k) as [(kv' & w' & I' & E' & C)|[N _]].
  - pose proof (eff_of_inj d ND kv kv' I I') as J. rewrite E, E' in J. specialize (J eq_refl). subst kv'.
    congruence.
  - now apply N in E.
Qed.

Lemma conf_diags : forall d c ds, conf_deserialize deser default tbl d = Some (c, ds) ->
  ds = flat_map (fun kv => snd (key_effect d (fst kv) (snd kv))) d.
Proof. intros d c ds H. unfold conf_deserialize in H. rewrite keys_loop_ok in H. congruence. Qed.
End K.

(** ** File search *)

Lemma scan_two : forall level d,
  scan_names level [(".clippy.toml"%string, dot_clippy d); ("clippy.toml"%string, clippy_toml d)] None =
  match dot_clippy d, clippy_toml d with
  | Unreadable, _ => inr ".clippy.toml"%string
  | File c, Missing => inl (Some (".clippy.toml"%string, c, false))
  | File c, _ => inl (Some (".clippy.toml"%string, c, true))
  | _, Unreadable => inr "clippy.toml"%string
  | _, File c => inl (Some ("clippy.toml"%string, c, false))
  | _, _ => inl None
  end.
Proof. intros level [[| | |c1] [| | |c2]]; reflexivity. Qed.

(** ** Closest match *)
Lemma min_by_key_ok : forall (A : Type) (l : list (nat * A)) best,
  (min_by_key best l = best \/ In (min_by_key best l) l) /\
  fst (min_by_key best l) <= fst best /\ forall x, In x l -> fst (min_by_key best l) <= fst x.
Proof.
  induction l as [|x l IH]; intros best; cbn [min_by_key In].
  - split; [now left|]. split; [lia|]. intros ? [].
  - destruct (fst x <? fst best) eqn:E.
    + apply Nat.ltb_lt in E. destruct (IH x) as (H & L & M).
      split; [right; destruct H; [left; congruence|now right]|]. split; [lia|].
      intros y [<- | Hy]; [lia|auto].
    + apply Nat.ltb_ge in E. destruct (IH best) as (H & L & M).
      split; [destruct H; [now left|right; now right]|]. split; [lia|].
      intros y [<- | Hy]; [lia|auto].
Qed.
