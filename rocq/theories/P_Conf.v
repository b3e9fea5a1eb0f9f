(** * Theorems about configuration and MSRV handling (C40 - C43, C50 - C52) *)
From Coq Require Import List String Ascii Arith Bool Lia Permutation.
From Verif Require Import CliModel ConfModel ConfSpec ConfProofs ConfProofs2.
Import ListNotations.
Local Open Scope nat_scope.
Local Open Scope list_scope.

(** ** C40 MSRV *)

(** What an early pass sees at each node is the version of the innermost
    attribute, for every tree; afterwards the stack is as before. *)
Theorem msrv_early_innermost : forall pv conf t,
  exists seen vis, early_run pv (stack_from conf) false t = (stack_from conf, seen, vis) /\
    forall i o, In (i, o) vis <-> exists chain, occurs_at t chain i /\ in_force pv conf chain o.
Proof. exact early_correct. Qed.
Print Assumptions msrv_early_innermost.

(** From any stack and flag, visiting a subtree leaves the stack unchanged. *)
Theorem msrv_stack_restored : forall pv st seen t,
  fst (fst (early_run pv st seen t)) = st.
Proof. intros pv st seen t. destruct (early_run_ok pv t st seen) as (s & v & -> & _). reflexivity. Qed.
Print Assumptions msrv_stack_restored.

(** A late pass, with SEEN_MSRV_ATTR as left by the early pass over the same
    tree, uses the same version. *)
Theorem msrv_late_innermost : forall pv conf t seen vis st,
  early_run pv (stack_from conf) false t = (st, seen, vis) ->
  forall chain i o, occurs_at t chain i ->
  (msrv_at pv seen conf chain = o <-> in_force pv conf chain o).
Proof. exact late_correct. Qed.
Print Assumptions msrv_late_innermost.

(** The version in force is unique. *)
Theorem msrv_in_force_unique : forall pv conf chain o o',
  in_force pv conf chain o -> in_force pv conf chain o' -> o = o'.
Proof. intros pv conf chain o o' H H'. apply in_force_iff in H, H'. congruence. Qed.
Print Assumptions msrv_in_force_unique.

(** "meets": nothing in force, or at least the required version. *)
Theorem msrv_meets_iff : forall cur required,
  meets_version cur required = true <-> (cur = None \/ exists v, cur = Some v /\ version_le required v).
Proof.
  intros [v|] required; cbn [meets_version].
  - rewrite version_leb_le. split; [right; exists v; auto|].
    intros [H|(w & E & H)]; [discriminate|]. injection E as ->. exact H.
  - split; auto.
Qed.
Print Assumptions msrv_meets_iff.

(** A feature required at a lower version is met whenever one at a higher is. *)
Theorem msrv_meets_monotone : forall cur a b,
  version_le a b -> meets_version cur b = true -> meets_version cur a = true.
Proof.
  intros cur a b L H. apply msrv_meets_iff in H. apply msrv_meets_iff.
  destruct H as [-> | (v & -> & H)]; [now left|]. right. exists v. split; [reflexivity|].
  destruct v as [[v1 v2] v3]; inversion L; subst; inversion H; subst;
    try (apply vle_major; lia); try (apply vle_minor; lia); apply vle_patch; lia.
Qed.
Print Assumptions msrv_meets_monotone.

(** No `clippy::msrv` attribute is ignored without a diagnostic. *)
Theorem msrv_attrs_diagnosed : forall pv attrs a,
  In a attrs -> is_msrv a = true ->
  check_attrs pv attrs <> [] \/
  exists s v, value_str a = Some s /\ pv s = Some v /\ declares pv attrs v.
Proof.
  intros pv attrs a I M. destruct (check_attrs pv attrs) eqn:E; [right|left; discriminate].
  eapply well_formed_used; eauto. now apply check_attrs_ok.
Qed.
Print Assumptions msrv_attrs_diagnosed.

(** ... and well-formed attributes give none. *)
Theorem msrv_attrs_no_false_alarm : forall pv attrs,
  check_attrs pv attrs = [] <-> well_formed_attrs pv attrs.
Proof. exact check_attrs_ok. Qed.
Print Assumptions msrv_attrs_no_false_alarm.

(** clippy.toml's version wins, Cargo.toml's is used if there is none, and a
    warning is given exactly if both are there and differ. *)
Theorem msrv_merge : forall pv conf var,
  (forall v, conf = Some v -> fst (merge_msrv pv conf var) = Some v) /\
  (conf = None -> fst (merge_msrv pv conf var) = match var with Some s => pv s | None => None end) /\
  (snd (merge_msrv pv conf var) = true <->
     exists v s c, conf = Some v /\ var = Some s /\ pv s = Some c /\ v <> c).
Proof.
  intros pv conf var. unfold merge_msrv.
  destruct conf as [v|], var as [s|]; try destruct (pv s) as [c|] eqn:P; cbn;
    (split; [congruence|]); (split; [congruence|]).
  - rewrite negb_true_iff. split.
    + intros H. exists v, s, c. repeat split; auto. intros ->.
      rewrite (proj2 (version_eqb_eq c c) eq_refl) in H. discriminate.
    + intros (v' & s' & c' & E1 & E2 & E3 & N). destruct (version_eqb v c) eqn:Q; [|reflexivity].
      apply version_eqb_eq in Q. congruence.
  - split; [discriminate|]. intros (? & ? & ? & ? & E & ? & ?). congruence.
  - split; [discriminate|]. intros (? & ? & ? & ? & E & ? & ?). congruence.
  - split; [discriminate|]. intros (? & ? & ? & E & ? & ? & ?). congruence.
  - split; [discriminate|]. intros (? & ? & ? & E & ? & ? & ?). congruence.
  - split; [discriminate|]. intros (? & ? & ? & E & ? & ? & ?). congruence.
Qed.
Print Assumptions msrv_merge.

Definition pv_ex (s : string) : option version :=
  if String.eqb s "1.50" then Some (1, 50, 0) else if String.eqb s "1.60" then Some (1, 60, 0) else None.
Definition tree_ex : tree :=
  Node 0 [mk_attr false None]
    [Node 1 [mk_attr true (Some "1.50"%string)] [Node 2 [] []; Node 3 [mk_attr true (Some "junk"%string)] []];
     Node 4 [] []].
Example msrv_ex :
  early_run pv_ex (stack_from (Some (1, 60, 0))) false tree_ex =
  ([(1, 60, 0)], true,
   [(0, Some (1, 60, 0)); (1, Some (1, 50, 0)); (2, Some (1, 50, 0)); (2, Some (1, 50, 0));
    (3, Some (1, 50, 0)); (3, Some (1, 50, 0)); (1, Some (1, 50, 0)); (4, Some (1, 60, 0));
    (4, Some (1, 60, 0)); (0, Some (1, 60, 0))]) /\
  occurs_at tree_ex [[]; [mk_attr true (Some "1.50"%string)]; [mk_attr false None]] 2 /\
  check_attrs pv_ex [mk_attr true (Some "junk"%string)] = [MInvalid "junk"] /\
  merge_msrv pv_ex (Some (1, 60, 0)) (Some "1.50"%string) = (Some (1, 60, 0), true).
Proof.
  split; [vm_compute; reflexivity|]. split; [|split; reflexivity].
  change [[]; [mk_attr true (Some "1.50"%string)]; [mk_attr false None]]
    with (([[]] ++ [[mk_attr true (Some "1.50"%string)]]) ++ [[mk_attr false None]]).
  eapply occurs_below; [now left|]. eapply occurs_below; [now left|]. constructor.
Qed.

(** ** C41 lists *)

Theorem config_list_extends : forall V T D (deser : toml V -> option T * list D) values defaults,
  exists r, entries deser values r /\
  (In (TStr "..") values -> fst (deserialize_array deser (TArr values) defaults) = r ++ defaults) /\
  (~ In (TStr "..") values -> fst (deserialize_array deser (TArr values) defaults) = r).
Proof.
  intros V T D deser values defaults.
  destruct (array_loop_ok deser values false) as (r & ds & E & R & _).
  exists r. split; [exact R|]. unfold deserialize_array. rewrite E. cbn [orb fst].
  destruct (existsb is_dots values) eqn:X; cbn [fst]; split; intros H; try reflexivity.
  - exfalso. apply existsb_exists in X as (x & I & Q). apply is_dots_eq in Q. subst. contradiction.
  - exfalso. apply not_true_iff_false in X. apply X. apply existsb_exists. exists (TStr ".."). split; auto.
Qed.
Print Assumptions config_list_extends.

Theorem config_list_not_a_list : forall V T D (deser : toml V -> option T * list D) value defaults,
  (forall l, value <> TArr l) ->
  deserialize_array deser value defaults = (defaults, [NotArray]).
Proof. intros V T D deser [s|v|l] defaults H; try reflexivity. now destruct (H l). Qed.
Print Assumptions config_list_not_a_list.

(** A warning for each ".." after the first; the diagnostics of every other
    entry, and no more. *)
Theorem config_list_diagnostics : forall V T D (deser : toml V -> option T * list D) values defaults,
  let ds := snd (deserialize_array deser (TArr values) defaults) in
  List.length (filter (fun d => match d with DupDots => true | _ => false end) ds)
    = List.length (filter is_dots values) - 1 /\
  ~ In NotArray ds /\
  (forall d, In (ElemDiag d) ds <-> exists x, In x values /\ x <> TStr ".." /\ In d (snd (deser x))).
Proof.
  intros V T D deser values defaults.
  destruct (array_loop_ok deser values false) as (r & ds & E & _ & C & N & DD).
  unfold deserialize_array. rewrite E. cbn [snd]. auto.
Qed.
Print Assumptions config_list_diagnostics.

(** [entries] determines the list. *)
Theorem config_list_unique : forall V T D (deser : toml V -> option T * list D) l r r',
  entries deser l r -> entries deser l r' -> r = r'.
Proof.
  intros V T D deser l r r' H. revert r'. induction H; intros r' H'; inversion H'; subst; try congruence; auto.
  f_equal; [congruence|auto].
Qed.
Print Assumptions config_list_unique.

Definition deser_ex (x : toml nat) : option nat * list string :=
  match x with TOther v => (Some v, []) | _ => (None, ["bad"%string]) end.
Example config_list_ex :
  deserialize_array deser_ex (TArr [TOther 7; TStr ".."; TStr "x"; TStr ".."; TOther 8]) [1; 2]
    = ([7; 8; 1; 2], [ElemDiag "bad"%string; DupDots]) /\
  deserialize_array deser_ex (TArr [TOther 7]) [1; 2] = ([7], []) /\
  deserialize_array deser_ex (TOther 3) [1; 2] = ([1; 2], [NotArray]).
Proof. repeat split. Qed.

(** ** C42 keys *)

(** For every table meeting [table_ok] and every document with distinct keys
    (the TOML parser sees to that).  Missing for the full statement: a field
    that is both renamed and typed ([conf_keys_refuted] below). *)
Theorem conf_keys_handled_partial : forall V W D (deser : string -> V -> W * list D) default tbl d,
  table_ok tbl -> NoDup (map fst d) ->
  exists c ds, conf_deserialize deser default tbl d = Some (c, ds) /\
  (* a key with a type sets its field *)
  (forall e v, In e tbl -> e_typed e = true -> In (e_name e, v) d ->
     c (e_name e) = fst (deser (e_name e) v) /\
     forall x, In x (snd (deser (e_name e) v)) -> In (ValueDiag (e_name e) x) ds) /\
  (* a key without sets the field it is renamed to, unless that is set as well *)
  (forall e v, In e tbl -> e_typed e = false -> In (e_name e, v) d ->
     (exists b, In (DeprecatedKey (e_name e) (target e) b) ds) /\
     (In (target e) (map fst d) -> In (DuplicateKey (e_name e) (target e)) ds) /\
     (~ In (target e) (map fst d) -> c (target e) = fst (deser (target e) v))) /\
  (* an unknown key is reported *)
  (forall k v, In (k, v) d -> ~ In k (map e_name tbl) -> k <> "third-party"%string ->
     In (UnknownKey k) ds) /\
  (* a field set neither by its name nor by an old name has its default *)
  (forall k, ~ In k (map fst d) ->
     (forall e, In e tbl -> e_typed e = false -> target e = k -> ~ In (e_name e) (map fst d)) ->
     c k = default k).
Proof.
  intros V W D deser default tbl d OK ND.
  destruct (conf_total deser default tbl OK d) as (c & ds & E). exists c, ds.
  split; [exact E|].
  pose proof (conf_diags deser default tbl OK d c ds E) as DS.
  assert (DI : forall k v x, In (k, v) d -> In x (snd (key_effect deser tbl d k v)) -> In x ds).
  { intros k v x I X. rewrite DS. apply in_flat_map. exists (k, v). auto. }
  split; [|split; [|split]].
  - intros e v I T K. pose proof (lookup_in tbl OK e I) as L.
    assert (KE : key_effect deser tbl d (e_name e) v =
      (Some (e_name e, fst (deser (e_name e) v)), map (ValueDiag (e_name e)) (snd (deser (e_name e) v)))).
    { unfold key_effect. rewrite L, T. now destruct (deser (e_name e) v). }
    split.
    + eapply (conf_value_eq deser default tbl OK d c ds ND E (e_name e, v)); [exact K|].
      unfold eff_of. cbn [fst snd]. now rewrite KE.
    + intros x X. apply (DI _ _ _ K). rewrite KE. now apply in_map.
  - intros e v I T K. pose proof (lookup_in tbl OK e I) as L.
    destruct (ok_renamed _ OK e I T) as (e' & R & _ & _).
    assert (TE : target e = e_name e') by (unfold target; now rewrite R).
    assert (KE : key_effect deser tbl d (e_name e) v =
      if has_key d (target e)
      then (None, [DeprecatedKey (e_name e) (target e) false; DuplicateKey (e_name e) (target e)])
      else (Some (target e, fst (deser (target e) v)),
            DeprecatedKey (e_name e) (target e) true :: map (ValueDiag (target e)) (snd (deser (target e) v)))).
    { unfold key_effect. rewrite L, T, R, TE. destruct (has_key d (e_name e')); [reflexivity|].
      now destruct (deser (e_name e') v). }
    destruct (has_key d (target e)) eqn:H.
    + split; [exists false; apply (DI _ _ _ K); rewrite KE; now left|]. split.
      * intros _. apply (DI _ _ _ K). rewrite KE. right. now left.
      * intros N. apply has_key_in in H. contradiction.
    + split; [exists true; apply (DI _ _ _ K); rewrite KE; now left|]. split.
      * intros N. apply has_key_in in N. congruence.
      * intros _. eapply (conf_value_eq deser default tbl OK d c ds ND E (e_name e, v)); [exact K|].
        unfold eff_of. cbn [fst snd]. now rewrite KE.
  - intros k v K N T. apply (DI _ _ _ K). unfold key_effect.
    destruct (lookup_entry tbl k) as [e|] eqn:L.
    + apply lookup_some in L as [I <-]. exfalso. apply N. now apply in_map.
    + apply String.eqb_neq in T. rewrite T. now left.
  - intros k NK NO. destruct (conf_value deser default tbl OK d c ds ND E k) as [((k' & v) & w & I & EF & _)|[_ H]]; [exfalso|exact H].
    unfold eff_of, key_effect in EF. cbn [fst snd] in EF.
    assert (IK : In k' (map fst d)) by (change k' with (fst (k', v)); now apply in_map).
    destruct (lookup_entry tbl k') as [e|] eqn:L; [|destruct (String.eqb k' "third-party"); discriminate].
    apply lookup_some in L as [J <-]. destruct (e_typed e) eqn:T.
    + destruct (deser (e_name e) v). injection EF as <- _. contradiction.
    + destruct (ok_renamed _ OK e J T) as (e' & R & _ & _). rewrite R in EF.
      destruct (has_key d (e_name e')); [discriminate|]. destruct (deser (e_name e') v).
      injection EF as <- _. apply (NO e J T); [unfold target; now rewrite R|exact IK].
Qed.
Print Assumptions conf_keys_handled_partial.

(** No diagnostic without a reason. *)
Theorem conf_keys_no_false_alarm : forall V W D (deser : string -> V -> W * list D) default tbl d c ds,
  table_ok tbl -> NoDup (map fst d) -> conf_deserialize deser default tbl d = Some (c, ds) ->
  (forall k, In (UnknownKey k) ds ->
     In k (map fst d) /\ ~ In k (map e_name tbl) /\ k <> "third-party"%string) /\
  (forall k n b, In (DeprecatedKey k n b) ds ->
     exists e, In e tbl /\ e_name e = k /\ e_rename e = Some n /\ e_typed e = false /\ In k (map fst d) /\
       (b = true <-> ~ In n (map fst d))) /\
  (forall k n, In (DuplicateKey k n) ds -> In k (map fst d) /\ In n (map fst d) /\ k <> n).
Proof.
  intros V W D deser default tbl d c ds OK ND E.
  pose proof (conf_diags deser default tbl OK d c ds E) as DS.
  assert (G : forall x, In x ds -> exists k v, In (k, v) d /\ In x (snd (key_effect deser tbl d k v))).
  { intros x X. rewrite DS in X. apply in_flat_map in X as ((k & v) & I & X). exists k, v. auto. }
  assert (IK : forall k v, In (k, v) d -> In k (map fst d))
    by (intros k v I; change k with (fst (k, v)); now apply in_map).
  split; [|split].
  - intros k X. apply G in X as (k' & v & I & X). unfold key_effect in X.
    destruct (lookup_entry tbl k') as [e|] eqn:L.
    + destruct (e_typed e).
      * destruct (deser k' v). cbn in X. apply in_map_iff in X as (? & ? & _). discriminate.
      * destruct (has_key d _); [cbn in X; destruct X as [X|[X|[]]]; discriminate|].
        destruct (deser _ v). cbn in X. destruct X as [X|X]; [discriminate|].
        apply in_map_iff in X as (? & ? & _). discriminate.
    + destruct (String.eqb k' "third-party") eqn:T; [destruct X|].
      destruct X as [X|[]]. injection X as <-. split; [now apply IK with v|].
      split; [now apply lookup_none|]. now apply String.eqb_neq.
  - intros k n b X. apply G in X as (k' & v & I & X). unfold key_effect in X.
    destruct (lookup_entry tbl k') as [e|] eqn:L;
      [|destruct (String.eqb k' "third-party"); [destruct X|destruct X as [X|[]]; discriminate]].
    apply lookup_some in L as [J <-]. destruct (e_typed e) eqn:T.
    + destruct (deser (e_name e) v). cbn in X. apply in_map_iff in X as (? & ? & _). discriminate.
    + destruct (ok_renamed _ OK e J T) as (e' & R & _ & _). rewrite R in X.
      destruct (has_key d (e_name e')) eqn:H.
      * cbn in X. destruct X as [X|[X|[]]]; [|discriminate]. injection X as <- <- <-.
        exists e. repeat split; auto; try (now apply IK with v); [discriminate|].
        intros N. apply has_key_in in H. contradiction.
      * destruct (deser (e_name e') v). cbn in X. destruct X as [X|X].
        -- injection X as <- <- <-. exists e. repeat split; auto; [now apply IK with v|].
           intros _ N. apply has_key_in in N. congruence.
        -- apply in_map_iff in X as (? & ? & _). discriminate.
  - intros k n X. apply G in X as (k' & v & I & X). unfold key_effect in X.
    destruct (lookup_entry tbl k') as [e|] eqn:L;
      [|destruct (String.eqb k' "third-party"); [destruct X|destruct X as [X|[]]; discriminate]].
    apply lookup_some in L as [J <-]. destruct (e_typed e) eqn:T.
    + destruct (deser (e_name e) v). cbn in X. apply in_map_iff in X as (? & ? & _). discriminate.
    + destruct (ok_renamed _ OK e J T) as (e' & R & I' & T'). rewrite R in X.
      destruct (has_key d (e_name e')) eqn:H.
      * cbn in X. destruct X as [X|[X|[]]]; [discriminate|]. injection X as <- <-.
        split; [now apply IK with v|]. split; [now apply has_key_in|].
        intros Q. assert (e = e') by (eapply nodup_map_in; eauto using ok_distinct). congruence.
      * destruct (deser (e_name e') v). cbn in X. destruct X as [X|X]; [discriminate|].
        apply in_map_iff in X as (? & ? & _). discriminate.
Qed.
Print Assumptions conf_keys_no_false_alarm.

(** The table of the pinned commit meets the requirements. *)
Definition nodupb (l : list string) : bool :=
  (fix go l := match l with [] => true | x :: l' => negb (existsb (String.eqb x) l') && go l' end) l.
Lemma nodupb_ok : forall l, nodupb l = true -> NoDup l.
Proof.
  induction l as [|x l IH]; intros H; [constructor|]. cbn in H. apply andb_prop in H as [A B].
  constructor; [|now apply IH]. intros I. apply negb_true_iff in A. apply not_true_iff_false in A. apply A.
  apply existsb_exists. exists x. split; [assumption|apply String.eqb_refl].
Qed.

Theorem conf_table_meets_requirements : table_ok conf_table.
Proof.
  split.
  - apply nodupb_ok. vm_compute. reflexivity.
  - intros H. assert (X : existsb (String.eqb "third-party") (map e_name conf_table) = true)
      by (apply existsb_exists; eexists; split; [exact H|reflexivity]).
    vm_compute in X. discriminate.
  - intros e I T.
    assert (B : forallb (fun e => e_typed e || match e_rename e with
       | Some n => match lookup_entry conf_table n with Some e' => e_typed e' | None => false end
       | None => false end) conf_table = true) by (vm_compute; reflexivity).
    rewrite forallb_forall in B. specialize (B e I). rewrite T in B. cbn [orb] in B.
    destruct (e_rename e) as [n|]; [|discriminate].
    destruct (lookup_entry conf_table n) as [e'|] eqn:L; [|discriminate].
    apply lookup_some in L as [I' <-]. exists e'. auto.
  - intros e e' n I I' T T' R R'.
    assert (B : forallb (fun e => forallb (fun e' => e_typed e || e_typed e' ||
       match e_rename e, e_rename e' with
       | Some n, Some n' => negb (String.eqb n n') || String.eqb (e_name e) (e_name e') | _, _ => true end)
       conf_table) conf_table = true) by (vm_compute; reflexivity).
    rewrite forallb_forall in B. specialize (B e I). rewrite forallb_forall in B. specialize (B e' I').
    rewrite T, T', R, R', String.eqb_refl in B. cbn in B. apply String.eqb_eq in B.
    eapply nodup_map_in with (l := conf_table) (f := e_name); eauto.
    apply nodupb_ok. vm_compute. reflexivity.
Qed.
Print Assumptions conf_table_meets_requirements.

(** Only current names are proposed for an unknown key. *)
Theorem conf_suggested_names : forall tbl s, In s (sugg_names tbl) <->
  s = "third-party"%string \/ exists e, In e tbl /\ e_name e = s /\ e_rename e = None.
Proof.
  intros tbl s. unfold sugg_names. rewrite in_app_iff, in_map_iff. cbn [In]. split.
  - intros [(e & <- & I)|[<- | []]]; [right|now left].
    apply filter_In in I as [I R]. exists e. destruct (e_rename e); [discriminate|auto].
  - intros [-> | (e & I & <- & R)]; [right; now left|left].
    exists e. split; [reflexivity|]. apply filter_In. now rewrite R.
Qed.
Print Assumptions conf_suggested_names.

Definition deser_key_ex (_ : string) (v : bool) : bool * list string := (v, []).
Example conf_keys_ex :
  exists c, conf_deserialize deser_key_ex (fun _ => false) conf_table
    [("msrv", true); ("blacklisted-names", true); ("cyclomatic-complexity-threshold", true);
     ("cognitive-complexity-threshold", false); ("nonsense", true); ("third-party", true)]%string =
  Some (c, [DeprecatedKey "blacklisted-names" "disallowed-names" true;
            DeprecatedKey "cyclomatic-complexity-threshold" "cognitive-complexity-threshold" false;
            DuplicateKey "cyclomatic-complexity-threshold" "cognitive-complexity-threshold";
            UnknownKey "nonsense"]%string) /\
  c "msrv"%string = true /\ c "disallowed-names"%string = true /\
  c "cognitive-complexity-threshold"%string = false /\ c "too-many-lines-threshold"%string = false.
Proof. eexists. split; [vm_compute; reflexivity|]. vm_compute. auto. Qed.

(** The full statement - every key of the table present in the document sets
    the field it is for, or is diagnosed - is false of the pinned commit:
    conf.rs:591-592 gives `lint-inconsistent-struct-field-initializers` both a
    new name and a type, so that it silently sets a field nothing reads. *)
Theorem conf_keys_refuted : exists (d : list (string * bool)) e v c,
  NoDup (map fst d) /\ In e conf_table /\ In (e_name e, v) d /\
  conf_deserialize deser_key_ex (fun _ => false) conf_table d = Some (c, []) /\
  c (target e) <> v.
Proof.
  exists [("lint-inconsistent-struct-field-initializers"%string, true)],
    (mk_entry "lint-inconsistent-struct-field-initializers"
       (Some "check-inconsistent-struct-field-initializers"%string) true), true.
  eexists. split; [repeat constructor; intros []|]. split.
  { assert (X : List.find (fun e => String.eqb (e_name e) "lint-inconsistent-struct-field-initializers") conf_table
       = Some (mk_entry "lint-inconsistent-struct-field-initializers"
       (Some "check-inconsistent-struct-field-initializers"%string) true)) by (vm_compute; reflexivity).
    apply find_some in X. apply X. }
  split; [now left|]. split; [vm_compute; reflexivity|]. vm_compute. discriminate.
Qed.
Print Assumptions conf_keys_refuted.

(** ** C43 listing of values *)

Theorem value_list_complete : forall width pretty values,
  listing width values (create_value_list_msg width pretty values).
Proof. exact value_list_ok. Qed.
Print Assumptions value_list_complete.

(** Several columns only on a terminal that takes them. *)
Theorem value_list_plain : forall width values,
  create_value_list_msg width false values = "possible values:"%string :: values \/
  List.length values <= 8.
Proof.
  intros width values. unfold create_value_list_msg.
  destruct (List.length values <=? 8) eqn:E; cbn [andb]; [right; now apply Nat.leb_le|now left].
Qed.
Print Assumptions value_list_plain.

Example value_list_ex :
  create_value_list_msg 60 true ["alpha"; "beta"; "gamma"; "d"; "e"; "f"; "g"; "h"; "iota"; "k"; "l"; "m"]%string =
  ["possible values:"; "alpha    g"; "beta     h"; "gamma    iota"; "d        k"; "e        l"; "f        m"]%string /\
  create_value_list_msg 60 true ["a"; "b"]%string = ["possible values: `a`, `b`"%string] /\
  create_value_list_msg 38 true ["aaaaaaaaaaaaaa"; "b"; "b"; "b"; "b"; "b"; "b"; "b"; "b"; "b"; "b"; "bbbbbbbbbbbbbbb"]%string
    = "possible values:"%string :: ["aaaaaaaaaaaaaa"; "b"; "b"; "b"; "b"; "b"; "b"; "b"; "b"; "b"; "b"; "bbbbbbbbbbbbbbb"]%string.
Proof. vm_compute. auto. Qed.

(** ** C50 the nearest configuration file *)

Theorem config_file_nearest : forall dirs,
  match search_dirs 0 dirs with
  | LoadNone => forall d, In d dirs -> no_file (dot_clippy d) /\ no_file (clippy_toml d)
  | LoadError i name => exists before d after, dirs = before ++ d :: after /\ List.length before = i /\
      (forall d', In d' before -> no_file (dot_clippy d') /\ no_file (clippy_toml d')) /\
      ((name = ".clippy.toml"%string /\ dot_clippy d = Unreadable) \/
       (name = "clippy.toml"%string /\ no_file (dot_clippy d) /\ clippy_toml d = Unreadable))
  | Loaded i name content warned => exists before d after, dirs = before ++ d :: after /\ List.length before = i /\
      (forall d', In d' before -> no_file (dot_clippy d') /\ no_file (clippy_toml d')) /\
      ((name = ".clippy.toml"%string /\ dot_clippy d = File content /\ (warned = true <-> clippy_toml d <> Missing)) \/
       (name = "clippy.toml"%string /\ no_file (dot_clippy d) /\ clippy_toml d = File content /\ warned = false))
  end.
Proof.
  intros dirs.
  assert (G : forall dirs k,
    match search_dirs k dirs with
    | LoadNone => forall d, In d dirs -> no_file (dot_clippy d) /\ no_file (clippy_toml d)
    | LoadError i name => exists before d after, dirs = before ++ d :: after /\ k + List.length before = i /\
        (forall d', In d' before -> no_file (dot_clippy d') /\ no_file (clippy_toml d')) /\
        ((name = ".clippy.toml"%string /\ dot_clippy d = Unreadable) \/
         (name = "clippy.toml"%string /\ no_file (dot_clippy d) /\ clippy_toml d = Unreadable))
    | Loaded i name content warned => exists before d after, dirs = before ++ d :: after /\ k + List.length before = i /\
        (forall d', In d' before -> no_file (dot_clippy d') /\ no_file (clippy_toml d')) /\
        ((name = ".clippy.toml"%string /\ dot_clippy d = File content /\ (warned = true <-> clippy_toml d <> Missing)) \/
         (name = "clippy.toml"%string /\ no_file (dot_clippy d) /\ clippy_toml d = File content /\ warned = false))
    end).
  { clear. unfold no_file. induction dirs as [|d dirs IH]; intros k; cbn [search_dirs]; [intros ? []|].
    rewrite scan_two. specialize (IH (S k)).
    assert (STEP : (dot_clippy d = Missing \/ dot_clippy d = NotAFile) /\ (clippy_toml d = Missing \/ clippy_toml d = NotAFile) ->
      match search_dirs (S k) dirs with
      | LoadNone => forall d', In d' (d :: dirs) -> (dot_clippy d' = Missing \/ dot_clippy d' = NotAFile) /\ (clippy_toml d' = Missing \/ clippy_toml d' = NotAFile)
      | LoadError i name => exists before d' after, d :: dirs = before ++ d' :: after /\ k + List.length before = i /\
          (forall d'', In d'' before -> (dot_clippy d'' = Missing \/ dot_clippy d'' = NotAFile) /\ (clippy_toml d'' = Missing \/ clippy_toml d'' = NotAFile)) /\
          ((name = ".clippy.toml"%string /\ dot_clippy d' = Unreadable) \/
           (name = "clippy.toml"%string /\ (dot_clippy d' = Missing \/ dot_clippy d' = NotAFile) /\ clippy_toml d' = Unreadable))
      | Loaded i name content warned => exists before d' after, d :: dirs = before ++ d' :: after /\ k + List.length before = i /\
          (forall d'', In d'' before -> (dot_clippy d'' = Missing \/ dot_clippy d'' = NotAFile) /\ (clippy_toml d'' = Missing \/ clippy_toml d'' = NotAFile)) /\
          ((name = ".clippy.toml"%string /\ dot_clippy d' = File content /\ (warned = true <-> clippy_toml d' <> Missing)) \/
           (name = "clippy.toml"%string /\ (dot_clippy d' = Missing \/ dot_clippy d' = NotAFile) /\ clippy_toml d' = File content /\ warned = false))
      end).
    { intros H. destruct (search_dirs (S k) dirs).
      - intros d' [<- | I]; [exact H|now apply IH].
      - destruct IH as (b & d' & a & -> & L & Q & R). exists (d :: b), d', a. split; [reflexivity|].
        split; [cbn; lia|]. split; [|exact R]. intros d'' [<- | I]; [exact H|now apply Q].
      - destruct IH as (b & d' & a & -> & L & Q & R). exists (d :: b), d', a. split; [reflexivity|].
        split; [cbn; lia|]. split; [|exact R]. intros d'' [<- | I]; [exact H|now apply Q]. }
    destruct d as [x y]. cbn [dot_clippy clippy_toml] in *.
    destruct x as [| | |c1], y as [| | |c2]; try (apply STEP; auto);
      (exists []; eexists; exists dirs); cbn [app List.length dot_clippy clippy_toml]; rewrite ?Nat.add_0_r; (split; [reflexivity|]); (split; [reflexivity|]);
      (split; [intros ? []|]); cbn [dot_clippy clippy_toml]; intuition congruence. }
  apply (G dirs 0).
Qed.
Print Assumptions config_file_nearest.

Theorem config_start_dir : forall env,
  (forall p, env "CLIPPY_CONF_DIR"%string = Some p -> start_dir env = p) /\
  (env "CLIPPY_CONF_DIR"%string = None -> forall p, env "CARGO_MANIFEST_DIR"%string = Some p -> start_dir env = p) /\
  (env "CLIPPY_CONF_DIR"%string = None -> env "CARGO_MANIFEST_DIR"%string = None -> start_dir env = "."%string).
Proof. intros env. unfold start_dir. destruct (env _), (env _); repeat split; congruence. Qed.
Print Assumptions config_start_dir.

Example config_file_ex :
  search_dirs 0 [mk_dir Missing NotAFile; mk_dir (File "a") (File "b"); mk_dir (File "c") Missing]
    = Loaded 1 ".clippy.toml" "a" true /\
  search_dirs 0 [mk_dir NotAFile Unreadable; mk_dir (File "a") Missing] = LoadError 0 "clippy.toml".
Proof. split; reflexivity. Qed.

(** ** C51 the suggested name *)

Theorem closest_match_minimal : forall ed s options o,
  find_closest_match ed s options = Some o ->
  let norm x := map_string ascii_lower x in
  In o options /\ exists n, ed (norm (dash s)) (norm o) 4 = Some n /\
  forall o' n', In o' options -> ed (norm (dash s)) (norm o') 4 = Some n' -> n <= n'.
Proof.
  intros ed s options o H norm. unfold find_closest_match in H.
  set (f := fun o => match ed (norm (dash s)) (norm o) 4 with Some x => [(x, o)] | None => [] end).
  change (match flat_map f options with [] => None | x :: l => Some (snd (min_by_key x l)) end = Some o) in H.
  assert (F : forall n o, In (n, o) (flat_map f options) <-> In o options /\ ed (norm (dash s)) (norm o) 4 = Some n).
  { intros n o0. rewrite in_flat_map. unfold f. split.
    - intros (x & I & J). destruct (ed (norm (dash s)) (norm x) 4) eqn:E; [|destruct J].
      destruct J as [J|[]]. injection J as <- <-. auto.
    - intros [I E]. exists o0. split; [assumption|]. rewrite E. now left. }
  destruct (flat_map f options) as [|x l] eqn:Q; [discriminate|].
  destruct (min_by_key_ok _ l x) as (M & L & A). injection H as H.
  destruct (min_by_key x l) as [n o0]. cbn in *. subst o0.
  assert (I : In (n, o) (x :: l)) by (destruct M as [<- | M]; [now left|now right]).
  destruct (proj1 (F n o) I) as [I1 I2]. split; [assumption|]. exists n. split; [assumption|].
  intros o' n' Io E. destruct (proj2 (F n' o') (conj Io E)) as [Ex|J]; [rewrite Ex in L; exact L|]. now apply (A (n', o')).
Qed.
Print Assumptions closest_match_minimal.

Theorem closest_match_complete : forall ed s options,
  find_closest_match ed s options = None <->
  forall o, In o options -> ed (map_string ascii_lower (dash s)) (map_string ascii_lower o) 4 = None.
Proof.
  intros ed s options. unfold find_closest_match.
  induction options as [|o options IH]; [split; [intros _ ? []|reflexivity]|].
  cbn [flat_map]. destruct (ed _ (map_string ascii_lower o) 4) eqn:E; cbn [app].
  - split; [discriminate|]. intros H. rewrite H in E by now left. discriminate.
  - rewrite IH. split; intros H x; [intros [<- | I]; auto|intros I; apply H; now right].
Qed.
Print Assumptions closest_match_complete.
Example closest_match_ex :
  find_closest_match (fun a b _ => if String.eqb a b then Some 0 else Some 3) "Cognitive_Complexity"
    ["msrv"; "cognitive-complexity"]%string = Some "cognitive-complexity"%string.
Proof. reflexivity. Qed.

(** ** C52 item ordering groups *)

(** Groups are accepted exactly if every kind of item is in exactly one group
    and "use" is alone in its own; the internal error is unreachable; the
    lookup tables then give the group of each kind. *)
Theorem ordering_groups_checked : forall g,
  match check_groups g with
  | GOk g' lut => g' = g /\ groups_ok g /\
      forall k i name, lut k = Some (i, name) <-> in_group g i name k
  | GInternal => False
  | _ => ~ groups_ok g
  end.
Proof. exact check_groups_ok. Qed.
Print Assumptions ordering_groups_checked.

(** The hand-written default tables agree with the default groups. *)
Theorem ordering_groups_default : groups_ok default_groups /\
  (forall k i, default_lut k = Some i -> exists name, in_group default_groups i name k /\ default_back_lut k = Some name) /\
  forall k, exists i, default_lut k = Some i.
Proof.
  split; [|split].
  - split; [intros []; reflexivity|]. exists "use"%string. right. now left.
  - intros k i H. unfold in_group. destruct k; cbn in H; injection H as <-; eexists;
      (split; [eexists; split; [reflexivity|cbn; tauto]|reflexivity]).
  - intros []; eexists; reflexivity.
Qed.
Print Assumptions ordering_groups_default.
Example ordering_groups_ex :
  (exists lut, check_groups default_groups = GOk default_groups lut) /\
  check_groups [("all"%string, all_variants)] = GUseNotAlone /\
  check_groups [("a"%string, KUse :: all_variants)] = GWrongCount.
Proof. split; [eexists; reflexivity|]. split; reflexivity. Qed.
