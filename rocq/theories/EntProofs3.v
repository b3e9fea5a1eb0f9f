(* Proofs about EntModel.v: the closures given to or_insert_with. *)
From Coq Require Import List Bool PeanoNat Lia.
Import ListNotations.
From Verif Require Import EntSpec EntModel EntProofs EntProofs2.

(* A search that still allows the closure, and began at the tail, began before any use of the map *)
Lemma tail_fresh x s : forall il v, source s = true -> can_use_entry (visit il (KVar x) s v) = true -> in_tail_pos v = true ->
  allow_insert_closure (visit il (KVar x) s v) = true -> is_map_used v = false.
Proof.
  induction s as [|a IHa b IHb|o k' val|o vac val|f|y f|y f|f|c a IHa b IHb|c a IHa|b IHb| | |f b IHb]; intros il v SO C TL AL;
    (destruct (can_use_entry v) eqn:CV; [|rewrite visit_stopped in C by exact CV; congruence]);
    rewrite (visit_unfold _ _ _ v CV) in *; cbn [source] in SO; try discriminate SO.
  - cbn in AL. rewrite TL in AL. rewrite andb_false_r in AL. discriminate.
  - apply andb_true_iff in SO. destruct SO as [SA SB].
    pose proof (visit_told x b il _ SB C) as TB. pose proof (visit_told x a il _ SA (t_can _ _ _ _ TB)) as TA.
    pose proof (IHb il _ SB C TL AL) as U. cbn in U. exact (t_used _ _ _ _ TA U).
  - destruct o.
    + destruct (told_insert _ _ _ _ C) as (_ & U & _). exact U.
    + destruct (told_insert _ _ _ _ C) as (_ & U & _). exact U.
  - cbn in AL. rewrite TL in AL. rewrite ?andb_false_r in AL. discriminate.
  - destruct (names (KVar x) y); cbn in AL; rewrite TL in AL; rewrite ?andb_false_r in AL; discriminate.
  - destruct (names (KVar x) y); cbn in AL; rewrite TL in AL; rewrite ?andb_false_r in AL; discriminate.
  - cbn in AL. rewrite TL in AL. rewrite ?andb_false_r in AL. discriminate.
  - apply andb_true_iff in SO. destruct SO as [SA SB]. cbn in C, AL. pose proof (IHb il _ SB C TL AL) as U. exact U.
  - pose proof (visit_told x a il _ SO C) as TA. pose proof (t_allow _ _ _ _ TA AL) as H. cbn in H. rewrite TL in H. rewrite ?andb_false_r in H. discriminate.
  - destruct (Nat.eqb (edits (visit true (KVar x) b (allow (negb (in_tail_pos v)) v))) (edits v)); [|discriminate C].
    pose proof (visit_told x b true _ SO C) as TA. pose proof (t_allow _ _ _ _ TA AL) as H. cbn in H. rewrite TL in H. rewrite ?andb_false_r in H. discriminate.
  - cbn in AL. rewrite TL in AL. rewrite ?andb_false_r in AL. discriminate.
  - cbn in AL. rewrite TL in AL. rewrite ?andb_false_r in AL. discriminate.
  - pose proof (visit_told x b false _ SO C) as TA. pose proof (t_allow _ _ _ _ TA AL) as H. cbn in H. rewrite TL in H. rewrite ?andb_false_r in H. discriminate.
Qed.

Section Sim.
Variable copy : bool.
Variable num times : nat -> list event -> nat.
Variable yes : nat -> list event -> bool.
Variable fn : nat -> nat -> list event -> nat.
Variable act : nat -> (nat -> option nat) -> list event -> nat -> option nat.
Variable seen : nat -> (nat -> option nat) -> list event -> nat.
Variable x : name.
Variable k0 : nat.
Variable m0 : nat -> option nat.
Variable free : bool.
Variable fuel : nat.
Notation exec := (exec copy num times yes fn act seen fuel).
Notation may := (may copy x free).

Definition Q (st st' : state) : Prop :=
  agree st st' /\ ent st = NoEntry /\ ent st' = Pending /\ may st' /\ vars st x = k0 /\ map st = m0.
Lemma Q_log e st st' : Q st st' -> Q (log e st) (log e st').
Proof. unfold Q, agree, EntProofs2.may. cbn. intros ((A1 & A2 & A3) & A4 & A5 & A6 & A7 & A8). rewrite A3. repeat split; auto. Qed.
Definition simQ (il : bool) (o o' : outcome) : Prop :=
  match o, o' with
  | Stuck, _ => True
  | Out, Out => True
  | Norm a, Norm b => Q a b
  | Brk a, Brk b => il = true /\ Q a b
  | _, _ => False
  end.
Lemma many_simQ run run' : (forall a b, Q a b -> simQ false (run a) (run' b)) -> forall n a b il, Q a b -> simQ il (many run n a) (many run' n b).
Proof.
  intros H n. induction n as [|n IH]; cbn; intros a b il E; [exact E|].
  specialize (H a b E). destruct (run a), (run' b); cbn in H |- *; auto; try contradiction.
Qed.
Lemma looping_simQ run run' : (forall a b, Q a b -> simQ true (run a) (run' b)) -> forall n a b il, Q a b -> simQ il (looping run n a) (looping run' n b).
Proof.
  intros H n. induction n as [|n IH]; cbn; intros a b il E; [exact Logic.I|].
  specialize (H a b E). destruct (run a), (run' b); cbn in H |- *; auto; try contradiction. apply H.
Qed.
Lemma simQ_weak il il' o o' : (il = true -> il' = true) -> simQ il o o' -> simQ il' o o'.
Proof. intros H. destruct o, o'; cbn; intuition. Qed.

(* What comes before the value *)
Lemma before_sim s : forall il v, source s = true -> inserts s = false -> assigns x s = false -> (free = true -> mentions x s = false) ->
  can_use_entry (visit il (KVar x) s v) = true -> allow_insert_closure (visit il (KVar x) s v) = true -> is_map_used (visit il (KVar x) s v) = false ->
  forall st st', Q st st' -> simQ il (exec s st) (exec s st').
Proof.
  induction s as [|a IHa b IHb|o k' val|o vac val|f|y f|y f|f|c a IHa b IHb|c a IHa|b IHb| | |f b IHb]; intros il v SO IN AS ME C AL US st st' E;
    (destruct (can_use_entry v) eqn:CV; [|rewrite visit_stopped in C by exact CV; congruence]);
    pose proof E as ((A1 & A2 & A3) & A4 & A5 & A6 & A7 & A8);
    (assert (F : filled st = false) by (unfold filled; rewrite A4; reflexivity));
    (assert (F' : filled st' = false) by (unfold filled; rewrite A5; reflexivity));
    rewrite (visit_unfold _ _ _ v CV) in *;
    rewrite (exec_unfold _ _ _ _ _ _ _ _ _ st F), (exec_unfold _ _ _ _ _ _ _ _ _ st' F'); cbn [source inserts assigns] in *; try discriminate SO; try discriminate IN.
  - exact E.
  - apply andb_true_iff in SO. destruct SO as [SA SB]. apply orb_false_iff in AS. destruct AS as [AA AB]. apply orb_false_iff in IN. destruct IN as [IA IB].
    assert (MA : free = true -> mentions x a = false) by (intros G; specialize (ME G); apply orb_false_iff in ME; apply ME).
    assert (MB : free = true -> mentions x b = false) by (intros G; specialize (ME G); apply orb_false_iff in ME; apply ME).
    pose proof (visit_told x b il _ SB C) as TB.
    specialize (IHa il (set_tail false v) SA IA AA MA (t_can _ _ _ _ TB) (t_allow _ _ _ _ TB AL) (t_used _ _ _ _ TB US) st st' E).
    destruct (exec a st), (exec a st'); cbn [simQ] in IHa |- *; try exact Logic.I; try contradiction.
    + exact (IHb il _ SB IB AB MB C AL US _ _ IHa).
    + exact IHa.
  - discriminate US.
  - destruct (is_moved y st); [exact Logic.I|]. rewrite (not_moved copy x free y st' A6 ME). cbn [simQ]. rewrite A2, A3. apply Q_log. exact E.
  - cbn [simQ]. pose proof (not_moved copy x free y st' A6 ME) as NM. unfold Q, agree, EntProofs2.may, set_var in *. cbn in *. rewrite NM.
    rewrite Nat.eqb_sym in AS. rewrite AS, A2, A3. rewrite A2 in A7. repeat split; auto.
  - apply Q_log. exact E.
  - apply andb_true_iff in SO. destruct SO as [SA SB]. apply orb_false_iff in AS. destruct AS as [AA AB]. apply orb_false_iff in IN. destruct IN as [IA IB].
    assert (MA : free = true -> mentions x a = false) by (intros G; specialize (ME G); apply orb_false_iff in ME; apply ME).
    assert (MB : free = true -> mentions x b = false) by (intros G; specialize (ME G); apply orb_false_iff in ME; apply ME).
    cbn [set_used set_tail is_map_used can_use_entry allow_insert_closure] in *. pose proof (visit_told x b il _ SB C) as TB.
    pose proof (t_can _ _ _ _ TB) as CCA. pose proof (t_allow _ _ _ _ TB AL) as ALA. cbn in CCA, ALA. apply orb_false_iff in US. destruct US as [UA UB].
    rewrite A3. destruct (yes c (trace st')).
    + exact (IHa il v SA IA AA MA CCA ALA UA _ _ (Q_log _ _ _ E)).
    + exact (IHb il _ SB IB AB MB C AL UB _ _ (Q_log _ _ _ E)).
  - rewrite A3. destruct (yes c (trace st')).
    + exact (IHa il _ SO IN AS ME C AL US _ _ (Q_log _ _ _ E)).
    + apply Q_log. exact E.
  - destruct (Nat.eqb (edits (visit true (KVar x) b (allow (negb (in_tail_pos v)) v))) (edits v)) eqn:EE; [|discriminate C].
    apply looping_simQ; auto. exact (IHb true _ SO IN AS ME C AL US).
  - cbn in AL |- *. split; [|exact E]. apply andb_true_iff in AL. apply AL.
  - cbn in AL. rewrite andb_false_r in AL. discriminate.
  - rewrite A3. apply many_simQ; [|apply Q_log; exact E]. exact (IHb false _ SO IN AS ME C AL US).
Qed.

Definition simF (o o' : outcome) : Prop :=
  match o, o' with
  | Stuck, _ => True
  | Out, Out => True
  | Norm a, Norm b => exists n, ent b = Filled n /\ map b = m0 /\ map a = upd m0 k0 n /\ vars a = vars b /\ trace a = trace b
  | _, _ => False
  end.
Lemma insert_simF v st st' : Q st st' -> (forall f, v <> VMap f) -> (free = true -> mentions x (SInsert false (KVar x) v) = false) ->
  simF (run_insert copy num seen false (KVar x) v st) (run_entry num seen false true v st').
Proof.
  intros (A & N & PE & MY & VX & M0) NM ME.
  destruct (insert_norm copy num seen x false v st) as [G|[st2 G]]; rewrite G; [exact Logic.I|].
  destruct (insert_inv copy num seen x false v st st2 N G) as (stm & n & st1 & W & V & ->).
  assert (AM : agree stm st' /\ map stm = m0) by (unfold agree in *; destruct W as [->| ->]; cbn; auto). destruct AM as (AM & MM).
  destruct (value_sim num seen v stm st' n st1 AM NM) as (st1' & V' & AG & E1 & E2 & E3 & E4 & E5).
  - intros y ->. apply (not_moved copy x free); auto.
  - exact V.
  - unfold run_entry. rewrite PE, V'. destruct AG as (G1 & G2 & G3). exists n. cbn. rewrite VX. repeat split; congruence.
Qed.
Lemma closure_sim s : forall il v, source s = true -> assigns x s = false -> (free = true -> mentions x s = false) ->
  can_use_entry (visit il (KVar x) s v) = true -> allow_insert_closure (visit il (KVar x) s v) = true -> in_tail_pos v = true -> il = false ->
  forall st st', Q st st' -> simF (exec s st) (exec (snippet true s) st').
Proof.
  induction s as [|a IHa b IHb|o k' val|o vac val|f|y f|y f|f|c a IHa b IHb|c a IHa|b IHb| | |f b IHb]; intros il v SO AS ME C AL TL IL st st' E;
    (destruct (can_use_entry v) eqn:CV; [|rewrite visit_stopped in C by exact CV; congruence]);
    pose proof E as ((A1 & A2 & A3) & A4 & A5 & A6 & A7 & A8);
    (assert (F : filled st = false) by (unfold filled; rewrite A4; reflexivity));
    (assert (F' : filled st' = false) by (unfold filled; rewrite A5; reflexivity));
    rewrite (visit_unfold _ _ _ v CV) in *; cbn [snippet];
    rewrite (exec_unfold _ _ _ _ _ _ _ _ _ st F), (exec_unfold _ _ _ _ _ _ _ _ _ st' F'); cbn [source assigns] in *; try discriminate SO.
  - cbn in AL. rewrite TL in AL. rewrite andb_false_r in AL. discriminate.
  - apply andb_true_iff in SO. destruct SO as [SA SB]. apply orb_false_iff in AS. destruct AS as [AA AB].
    assert (MA : free = true -> mentions x a = false) by (intros G; specialize (ME G); apply orb_false_iff in ME; apply ME).
    assert (MB : free = true -> mentions x b = false) by (intros G; specialize (ME G); apply orb_false_iff in ME; apply ME).
    pose proof (visit_told x b il _ SB C) as TB. pose proof (t_allow _ _ _ _ TB AL) as ALA. cbn in ALA.
    pose proof (t_can _ _ _ _ TB) as CA. cbn in CA. pose proof (visit_told x a il _ SA CA) as TA.
    destruct (t_tail _ _ _ _ TA eq_refl ALA) as [ED _]. pose proof (t_inserts _ _ _ _ TA ED) as IA. rewrite (snippet_id true a IA).
    pose proof (tail_fresh x b il _ SB C TL AL) as UA. cbn in UA.
    pose proof (before_sim a il (set_tail false v) SA IA AA MA CA ALA UA st st' E) as HA.
    destruct (exec a st), (exec a st'); cbn [simQ] in HA; try exact Logic.I; try contradiction.
    + exact (IHb il _ SB AB MB C AL TL IL _ _ HA).
    + destruct HA. congruence.
  - destruct o.
    + destruct (told_insert _ _ _ _ C) as (_ & _ & _ & _ & _ & ALE & _). rewrite ALE in AL. cbn in AL. rewrite andb_false_r in AL. discriminate.
    + destruct (told_insert _ _ _ _ C) as (_ & _ & -> & NM & _). apply insert_simF; auto.
  - cbn in AL. rewrite TL in AL. rewrite ?andb_false_r in AL. discriminate.
  - destruct (names (KVar x) y); cbn in AL; rewrite TL in AL; rewrite ?andb_false_r in AL; discriminate.
  - destruct (names (KVar x) y); cbn in AL; rewrite TL in AL; rewrite ?andb_false_r in AL; discriminate.
  - cbn in AL. rewrite TL in AL. rewrite ?andb_false_r in AL. discriminate.
  - apply andb_true_iff in SO. destruct SO as [SA SB]. apply orb_false_iff in AS. destruct AS as [AA AB].
    assert (MA : free = true -> mentions x a = false) by (intros G; specialize (ME G); apply orb_false_iff in ME; apply ME).
    assert (MB : free = true -> mentions x b = false) by (intros G; specialize (ME G); apply orb_false_iff in ME; apply ME).
    cbn [set_used set_tail is_map_used can_use_entry allow_insert_closure] in *. pose proof (visit_told x b il _ SB C) as TB.
    pose proof (t_can _ _ _ _ TB) as CCA. pose proof (t_allow _ _ _ _ TB AL) as ALA. cbn in CCA, ALA.
    rewrite A3. destruct (yes c (trace st')).
    + exact (IHa il v SA AA MA CCA ALA TL IL _ _ (Q_log _ _ _ E)).
    + exact (IHb il _ SB AB MB C AL TL IL _ _ (Q_log _ _ _ E)).
  - pose proof (visit_told x a il _ SO C) as TA. pose proof (t_allow _ _ _ _ TA AL) as H. cbn in H. rewrite TL in H. rewrite ?andb_false_r in H. discriminate.
  - destruct (Nat.eqb (edits (visit true (KVar x) b (allow (negb (in_tail_pos v)) v))) (edits v)); [|discriminate C].
    pose proof (visit_told x b true _ SO C) as TA. pose proof (t_allow _ _ _ _ TA AL) as H. cbn in H. rewrite TL in H. rewrite ?andb_false_r in H. discriminate.
  - cbn in AL. rewrite TL in AL. rewrite ?andb_false_r in AL. discriminate.
  - cbn in AL. rewrite TL in AL. rewrite ?andb_false_r in AL. discriminate.
  - pose proof (visit_told x b false _ SO C) as TA. pose proof (t_allow _ _ _ _ TA AL) as H. cbn in H. rewrite TL in H. rewrite ?andb_false_r in H. discriminate.
Qed.
End Sim.
