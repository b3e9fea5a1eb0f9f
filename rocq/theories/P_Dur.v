(** Property C36: durations. *)
From Coq Require Import Lia.
From Verif Require Import DurModel.
Local Open Scope Z_scope.

(** The constructors of Duration as documented: nanoseconds in one unit, the release that made it stable. *)
Inductive avail := Since (v : ver) | Feature.
Definition scale : list (text * (Z * avail)) :=
  [(tx "from_nanos", (1, Since V1_27)); (tx "from_micros", (10 ^ 3, Since V1_27)); (tx "from_millis", (10 ^ 6, Since V1_3)); (tx "from_secs", (10 ^ 9, Since V1_3));
   (tx "from_mins", (60 * 10 ^ 9, Since V1_91)); (tx "from_hours", (3600 * 10 ^ 9, Since V1_91)); (tx "from_days", (86400 * 10 ^ 9, Feature)); (tx "from_weeks", (604800 * 10 ^ 9, Feature))].
Definition lookup (name : text) : option (Z * avail) := option_map snd (find (fun p => teqb (fst p) name) scale).
(** [d] is the number of nanoseconds of `Duration::name(v)`. *)
Definition is_duration (name : text) (v d : Z) : Prop := exists n a, lookup name = Some (n, a) /\ d = v * n.
Definition usable (meets : ver -> bool) (ext : bool) (name : text) : Prop :=
  exists n a, lookup name = Some (n, a) /\ match a with Since r => meets r = true | Feature => ext = true end.
Definition finer (small big : text) : Prop := exists n a n' a', lookup small = Some (n, a) /\ lookup big = Some (n', a') /\ n < n'.

Lemma div_some a b q : 0 < b -> div_exact a b = Some q -> a = q * b.
Proof.
  intros B. unfold div_exact. replace (b =? 0) with false by (symmetry; apply Z.eqb_neq; lia). destruct (Z.eqb_spec (a mod b) 0) as [E|]; [|discriminate]. intros [= <-]. pose proof (Z.div_mod a b). lia.
Qed.
Lemma div_rest a b : 0 < b -> div_exact a b = None -> exists q r, a = b * q + r /\ 0 < r < b.
Proof.
  intros B. unfold div_exact. replace (b =? 0) with false by (symmetry; apply Z.eqb_neq; lia). destruct (Z.eqb_spec (a mod b) 0) as [|N]; [discriminate|]. intros _.
  exists (a / b), (a mod b). pose proof (Z.div_mod a b). pose proof (Z.mod_pos_bound a b). lia.
Qed.
Definition names : list text := map fst scale.
Lemma lookup_names name x : lookup name = Some x -> In name names.
Proof.
  unfold lookup. destruct (find _ scale) as [p|] eqn:F; [|discriminate]. intros _. apply find_some in F as [I T]. apply teqb_eq in T. subst name. now apply in_map.
Qed.
Lemma find_skip name us : ~ In name (map uname us) -> skip_while (fun u => negb (teqb (uname u) name)) us = [].
Proof.
  induction us as [|u us IH]; intros N; [reflexivity|]. cbn [skip_while]. destruct (teqb (uname u) name) eqn:T; [apply teqb_eq in T; exfalso; apply N; left; auto|]. cbn [negb]. apply IH. intros I. apply N. now right.
Qed.
Lemma promote_known meets ext name v r : promote meets (units ext) name v = Some r -> In name names.
Proof.
  intros P. destruct (in_dec text_eq_dec name names) as [|N]; [auto|]. exfalso. unfold promote in P. rewrite find_skip in P.
  - cbn [tl climb fst] in P. replace (teqb name name) with true in P by (symmetry; now apply teqb_eq). discriminate.
  - intros I. apply N. destruct ext; cbn in I |- *; tauto.
Qed.
(** The rest of the list after a constructor. *)
Ltac walk P :=
  repeat (cbn [climb snd fst factor uname since] in P;
    match type of P with
    | context [div_exact ?a ?b] => let D := fresh "D" in destruct (div_exact a b) eqn:D
    | context [?m ?r] => match type of m with ver -> bool => let M := fresh "M" in destruct (m r) eqn:M end
    end).
Ltac exact_steps :=
  repeat match goal with
  | H : div_exact _ _ = Some _ |- _ => apply div_some in H; [|reflexivity]
  end.
Ltac each_name I := cbn [names map scale fst In] in I; repeat destruct I as [I|I]; [subst..|destruct I].
Ltac open_promote P :=
  unfold promote in P;
  match type of P with context [skip_while ?f ?us] => let r := eval vm_compute in (tl (skip_while f us)) in change (tl (skip_while f us)) with r in P end.
Ltac finish P := cbn [climb snd fst factor uname since] in P; match type of P with context [teqb ?a ?b] => let r := eval vm_compute in (teqb a b) in change (teqb a b) with r in P end; cbn iota in P.

Ltac next_unit FN s := let Q := fresh in pose proof (FN (tx s) _ _ eq_refl ltac:(reflexivity) ltac:(discriminate)) as Q; cbn in Q; congruence.
(** The walk stopped too early. *)
Ltac stuck EQ FN :=
  first
  [ match goal with D : div_exact _ _ = None |- _ =>
      let q := fresh in let r := fresh in let E := fresh in let B := fresh in apply div_rest in D as (q & r & E & B); [exfalso; lia|reflexivity] end
  | next_unit FN "from_micros"%string | next_unit FN "from_millis"%string | next_unit FN "from_secs"%string | next_unit FN "from_mins"%string
  | next_unit FN "from_hours"%string | next_unit FN "from_days"%string | next_unit FN "from_weeks"%string ].
(** The offered constructor gives the same duration in a coarser unit, is usable, and the value is not zero. *)
Theorem duration_promotion_preserves meets ext name v lit name' v' : check_duration meets ext name v lit = Some (name', v') ->
  v <> 0 /\ (exists d, is_duration name v d /\ is_duration name' v' d) /\ finer name name' /\ usable meets ext name' /\ (lit = true -> 10 < v').
Proof.
  unfold check_duration. destruct (Z.eqb_spec v 0) as [|NZ]; [discriminate|]. destruct (promote meets (units ext) name v) as [[n w]|] eqn:P; [|discriminate].
  destruct (negb lit || (10 <? w)) eqn:L; [|discriminate]. intros [= -> ->]. split; [exact NZ|].
  assert (K : lit = true -> 10 < v') by (intros ->; cbn in L; now apply Z.ltb_lt).
  enough ((exists d, is_duration name v d /\ is_duration name' v' d) /\ finer name name' /\ usable meets ext name') by tauto. clear K L.
  pose proof (promote_known _ _ _ _ _ P) as I. destruct ext; each_name I; open_promote P; walk P; finish P; try discriminate; injection P as <- <-; exact_steps;
    (split; [|split]; [eexists; split; (eexists _, _; split; [reflexivity|]); [reflexivity|lia]|eexists _, _, _, _; split; [reflexivity|split; [reflexivity|reflexivity]]|eexists _, _; split; [reflexivity|cbn; auto]]).
Qed.
Print Assumptions duration_promotion_preserves.

(** It is the coarsest: no coarser unit, usable as are all units in between, gives the same duration. *)
Theorem duration_promotion_coarsest meets ext name v lit name' v' big : check_duration meets ext name v lit = Some (name', v') ->
  finer name' big -> (forall u, finer name' u -> ~ finer big u -> usable meets ext u) ->
  forall d k, is_duration name' v' d -> ~ is_duration big k d.
Proof.
  unfold check_duration. destruct (Z.eqb_spec v 0) as [|NZ]; [discriminate|]. destruct (promote meets (units ext) name v) as [[n w]|] eqn:P; [|discriminate].
  destruct (negb lit || (10 <? w)) eqn:L; [|discriminate]. intros [= -> ->]. clear L. pose proof (promote_known _ _ _ _ _ P) as I.
  intros (n1 & a1 & n2 & a2 & F1 & F2 & F3) U d k (n3 & a3 & F4 & ->) (n4 & a4 & F5 & EQ). rewrite F1 in F4. injection F4 as <- <-. rewrite F2 in F5. injection F5 as <- <-.
  pose proof (lookup_names _ _ F2) as J. pose proof (lookup_names _ _ F1) as J1.
  assert (FN : forall u nu au, lookup u = Some (nu, au) -> n1 < nu -> nu <= n2 -> match au with Since r => meets r = true | Feature => ext = true end).
  { intros u nu au LU L1 L2. destruct (U u) as (nn & aa & E & Q).
    - exists n1, a1, nu, au. auto.
    - intros (b1 & b2 & b3 & b4 & B1 & B2 & B3). rewrite F2 in B1. injection B1 as <- <-. rewrite LU in B2. injection B2 as <- <-. lia.
    - rewrite LU in E. injection E as <- <-. exact Q. }
  clear U.
  destruct ext; each_name I; open_promote P; walk P; finish P; try discriminate; injection P as <- <-; exact_steps; vm_compute in F1; injection F1 as <- <-;
    each_name J; vm_compute in F2; injection F2 as <- <-; try discriminate F3;
    stuck EQ FN.
Qed.
Print Assumptions duration_promotion_coarsest.

(** Every value that a coarser unit can express is reported, unless a literal of at most ten of the coarsest unit. *)
Theorem duration_promotion_complete meets ext name v big k d : v <> 0 -> is_duration name v d -> is_duration big k d -> finer name big ->
  (forall u, finer name u -> ~ finer big u -> usable meets ext u) ->
  exists name' v', ~ finer name' big /\ forall lit, check_duration meets ext name v lit = if negb lit || (10 <? v') then Some (name', v') else None.
Proof.
  intros NZ D1 D2 FB U. destruct (promote meets (units ext) name v) as [[name' v']|] eqn:P.
  - assert (C : check_duration meets ext name v false = Some (name', v')) by (unfold check_duration; rewrite P; replace (v =? 0) with false by (symmetry; now apply Z.eqb_neq); reflexivity).
    exists name', v'. split; [|intros lit; unfold check_duration; rewrite P; replace (v =? 0) with false by (symmetry; now apply Z.eqb_neq); reflexivity].
    intros F. destruct (duration_promotion_preserves _ _ _ _ _ _ _ C) as (_ & (d' & E1 & E2) & (n & a & n' & a' & F1 & F2 & F3) & _).
    destruct D1 as (m & am & G1 & ->). destruct E1 as (m' & am' & G2 & ->). rewrite G1 in G2. injection G2 as <- <-.
    apply (duration_promotion_coarsest _ _ _ _ _ _ _ big C F) with (d := v * m) (k := k); auto. intros u (x & ax & y & ay & X1 & X2 & X3) NU. apply U; [|auto].
    rewrite F2 in X1. injection X1 as <- <-. exists n, a, y, ay. split; [auto|]. split; [auto|lia].
  - exfalso. destruct D1 as (n1 & a1 & F1 & ->). destruct D2 as (n2 & a2 & F2 & EQ). destruct FB as (m1 & b1 & m2 & b2 & G1 & G2 & LT). rewrite F1 in G1. injection G1 as <- <-. rewrite F2 in G2. injection G2 as <- <-.
    pose proof (lookup_names _ _ F2) as J. pose proof (lookup_names _ _ F1) as I.
    assert (FN : forall u nu au, lookup u = Some (nu, au) -> n1 < nu -> nu <= n2 -> match au with Since r => meets r = true | Feature => ext = true end).
    { intros u nu au LU L1 L2. destruct (U u) as (nn & aa & E & Q).
      - exists n1, a1, nu, au. auto.
      - intros (c1 & c2 & c3 & c4 & B1 & B2 & B3). rewrite F2 in B1. injection B1 as <- <-. rewrite LU in B2. injection B2 as <- <-. lia.
      - rewrite LU in E. injection E as <- <-. exact Q. }
    clear U. destruct ext; each_name I; open_promote P; walk P; finish P; try discriminate; exact_steps; vm_compute in F1; injection F1 as <- <-;
    each_name J; vm_compute in F2; injection F2 as <- <-; try discriminate LT; stuck EQ FN.
Qed.
Print Assumptions duration_promotion_complete.
Example C36_nontrivial : forall meets, meets V1_91 = true -> meets V1_3 = true ->
  check_duration meets true (tx "from_millis") 86400000 false = Some (tx "from_days", 1) /\
  check_duration meets false (tx "from_secs") 7200 true = None /\ check_duration meets false (tx "from_secs") 660 true = Some (tx "from_mins", 11).
Proof. intros m A B. unfold check_duration, promote. cbn - [Z.modulo Z.div]. rewrite ?A, ?B. cbn. auto. Qed.
