(* Proofs about EntModel.v: the simulations. *)
From Coq Require Import List Bool PeanoNat Lia.
Import ListNotations.
From Verif Require Import EntSpec EntModel EntProofs.

Lemma snippet_id vac s : inserts s = false -> snippet vac s = s.
Proof.
  induction s; cbn; intros H; try reflexivity; try discriminate H; try (apply orb_false_iff in H; destruct H); try (now rewrite IHs1, IHs2); now rewrite IHs.
Qed.
Lemma inserts_closure s : inserts s = false -> closure_inserts s = false.
Proof.
  induction s; cbn; intros H; try reflexivity; try discriminate H; try (apply orb_false_iff in H; destruct H); try (now rewrite IHs1, IHs2); auto.
Qed.

Section Sim.
Variable copy : bool.
Variable num times : nat -> list event -> nat.
Variable yes : nat -> list event -> bool.
Variable fn : nat -> nat -> list event -> nat.
Variable act : nat -> (nat -> option nat) -> list event -> nat -> option nat.
Variable seen : nat -> (nat -> option nat) -> list event -> nat.
Variable x : name.
Variable k0 : nat.
Variable vacant : bool.
Variable free : bool.
Variable fuel : nat.
Notation exec := (exec copy num times yes fn act seen fuel).
Notation run_value := (run_value num seen).

Lemma exec_unfold s st : filled st = false -> exec s st =
  match s with
  | SSeq a b => match exec a st with Norm st => exec b st | o => o end
  | SIf c a b => if yes c (trace st) then exec a (log (Called c) st) else exec b (log (Called c) st)
  | SWhen c a => if yes c (trace st) then exec a (log (Called c) st) else Norm (log (Called c) st)
  | SLoop b => looping (exec b) fuel st
  | SInsert o k v => run_insert copy num seen o k v st
  | SEntry o vac v => run_entry num seen o vac v st
  | SUseMap f => use_map act seen f st
  | SUseKey y f => if is_moved y st then Stuck else Norm (log (Used f (fn f (vars st y) (trace st))) st)
  | SSet y f => Norm (set_var num y f st)
  | SCall f => Norm (log (Called f) st)
  | SBreak => Brk st
  | SReturn => Ret st
  | SMany f b => many (exec b) (times f (trace st)) (log (Called f) st)
  | SSkip => Norm st
  end.
Proof. intros F. destruct s; cbn [EntSpec.exec]; rewrite ?F; reflexivity. Qed.

Definition may (st : state) : Prop := copy = true /\ moved st = None \/ free = true /\ (moved st = None \/ moved st = Some x).
Definition sim (P : state -> state -> Prop) (o o' : outcome) : Prop :=
  match o, o' with
  | Stuck, _ => True
  | Out, Out => True
  | Norm a, Norm b | Brk a, Brk b | Ret a, Ret b => P a b
  | _, _ => False
  end.
Definition R (u : bool) (st st' : state) : Prop :=
  agree st st' /\ ent st = NoEntry /\ may st' /\ borrowed st' = false /\ (u = false -> ent st' = At k0 /\ vars st x = k0 /\ has (map st) k0 = negb vacant).
Lemma R_weak u u' st st' : (u' = false -> u = false) -> R u st st' -> R u' st st'.
Proof. unfold R. intuition. Qed.
Lemma sim_weak (P Q : state -> state -> Prop) o o' : (forall a b, P a b -> Q a b) -> sim P o o' -> sim Q o o'.
Proof. intros H. destruct o, o'; cbn; auto. Qed.
Lemma not_moved y st : may st -> (free = true -> Nat.eqb x y = false) -> is_moved y st = false.
Proof. unfold may, is_moved. intros [[_ E]|[F [E|E]]] H; rewrite E; auto. Qed.
Lemma borrowed_filled st : borrowed st = false -> filled st = false.
Proof. unfold borrowed, filled. destruct (ent st); congruence. Qed.
Lemma R_log u e st st' : R u st st' -> R u (log e st) (log e st').
Proof. unfold R, agree, may. cbn. intros ((A1 & A2 & A3) & A4 & A5 & A6 & A7). unfold borrowed in *. cbn. rewrite A3. repeat split; auto; apply A7; auto. Qed.

Lemma many_sim (P : state -> state -> Prop) run run' : (forall a b, P a b -> sim P (run a) (run' b)) ->
  forall n a b, P a b -> sim P (many run n a) (many run' n b).
Proof.
  intros H n. induction n as [|n IH]; cbn; intros a b E; [exact E|].
  specialize (H a b E). destruct (run a), (run' b); cbn in H |- *; auto; contradiction.
Qed.
Lemma looping_sim (P : state -> state -> Prop) run run' : (forall a b, P a b -> sim P (run a) (run' b)) ->
  forall n a b, P a b -> sim P (looping run n a) (looping run' n b).
Proof.
  intros H n. induction n as [|n IH]; cbn; intros a b E; [exact Logic.I|].
  specialize (H a b E). destruct (run a), (run' b); cbn in H |- *; auto; contradiction.
Qed.

Lemma use_sim u f st st' : R u st st' -> sim (R true) (use_map act seen f st) (use_map act seen f st').
Proof.
  intros ((A1 & A2 & A3) & A4 & A5 & A6 & A7). unfold use_map. rewrite A6. replace (borrowed st) with false by (unfold borrowed; now rewrite A4).
  cbn [sim]. rewrite A1, A3, A4. unfold R, agree. cbn. rewrite A3. split; [auto|]. split; [reflexivity|]. split; [exact A5|]. split; [|discriminate].
  unfold borrowed in *. cbn. destruct (ent st'); cbn; auto.
Qed.
(* Without insertions the same program does the same *)
Lemma same_sim s : source s = true -> inserts s = false -> (free = true -> mentions x s = false) ->
  forall st st', R true st st' -> sim (R true) (exec s st) (exec s st').
Proof.
  induction s as [|a IHa b IHb|o k' val|o vac val|f|y f|y f|f|c a IHa b IHb|c a IHa|b IHb| | |f b IHb]; intros SO IN ME st st' E;
    pose proof E as ((A1 & A2 & A3) & A4 & A5 & A6 & A7);
    (assert (F : filled st = false) by (unfold filled; rewrite A4; reflexivity)); pose proof (borrowed_filled _ A6) as F';
    rewrite (exec_unfold _ st F), (exec_unfold _ st' F'); cbn [source inserts mentions] in *; try discriminate.
  - exact E.
  - apply andb_true_iff in SO. destruct SO as [SA SB]. apply orb_false_iff in IN. destruct IN as [IA IB].
    assert (MA : free = true -> mentions x a = false) by (intros G; specialize (ME G); apply orb_false_iff in ME; apply ME).
    assert (MB : free = true -> mentions x b = false) by (intros G; specialize (ME G); apply orb_false_iff in ME; apply ME).
    specialize (IHa SA IA MA st st' E). destruct (exec a st), (exec a st'); cbn in IHa |- *; auto; contradiction.
  - exact (use_sim true f st st' E).
  - destruct (is_moved y st); [exact Logic.I|]. rewrite (not_moved y st' A5 ME). cbn. rewrite A2, A3. apply R_log. exact E.
  - cbn. unfold R, agree, may, borrowed, set_var in *. cbn in *. rewrite A1, A2, A3. repeat split; auto; try discriminate.
    pose proof (not_moved y st') as NM. unfold may in NM. rewrite (NM A5 ME). exact A5.
  - cbn. apply R_log. exact E.
  - apply andb_true_iff in SO. destruct SO as [SA SB]. apply orb_false_iff in IN. destruct IN as [IA IB].
    assert (MA : free = true -> mentions x a = false) by (intros G; specialize (ME G); apply orb_false_iff in ME; apply ME).
    assert (MB : free = true -> mentions x b = false) by (intros G; specialize (ME G); apply orb_false_iff in ME; apply ME).
    rewrite A3. destruct (yes c (trace st')); [apply IHa|apply IHb]; auto; apply R_log; exact E.
  - rewrite A3. destruct (yes c (trace st')); [apply IHa; auto|]; apply R_log; exact E.
  - apply looping_sim; auto.
  - exact E.
  - exact E.
  - rewrite A3. apply many_sim; auto. apply R_log. exact E.
Qed.

Lemma value_sim v st st' n st1 : agree st st' -> (forall f, v <> VMap f) -> (forall y, v = VKey y -> is_moved y st' = false) ->
  run_value v st = Some (n, st1) ->
  exists st1', run_value v st' = Some (n, st1') /\ agree st1 st1' /\ ent st1 = ent st /\ ent st1' = ent st' /\ moved st1' = moved st' /\ map st1 = map st /\ vars st1 = vars st.
Proof.
  unfold agree. intros (A1 & A2 & A3) NM K E. destruct v as [m|f|y|f]; cbn in *.
  - injection E as <- <-. exists st'. auto 10.
  - injection E as <- <-. exists (log (Called f) st'). cbn. rewrite A3. auto 10.
  - rewrite (K y eq_refl). destruct (is_moved y st); [discriminate|]. injection E as <- <-. rewrite A2. exists st'. auto 10.
  - destruct (NM f eq_refl).
Qed.
(* What an insertion of the source does *)
Lemma insert_inv o v st st2 : ent st = NoEntry -> run_insert copy num seen o (KVar x) v st = Norm st2 ->
  exists stm n st1, (stm = st \/ stm = with_moved (Some x) st) /\ run_value v stm = Some (n, st1) /\
    st2 = result o (map st1 (vars st x)) (with_ent (touch (ent st1)) (with_map (upd (map st1) (vars st x) n) st1)).
Proof.
  intros N. unfold run_insert, borrowed. rewrite N. cbn [give_key]. destruct (is_moved x st); [discriminate|].
  destruct copy.
  - destruct (run_value v st) as [[n st1]|] eqn:V; [|discriminate]. intros E. injection E as <-. exists st, n, st1. auto.
  - destruct (run_value v (with_moved (Some x) st)) as [[n st1]|] eqn:V; [|discriminate]. intros E. injection E as <-.
    exists (with_moved (Some x) st), n, st1. auto.
Qed.
Lemma insert_norm o v st : run_insert copy num seen o (KVar x) v st = Stuck \/ exists st2, run_insert copy num seen o (KVar x) v st = Norm st2.
Proof.
  unfold run_insert. destruct (borrowed st); [auto|]. destruct (give_key copy num (KVar x) st) as [[kv st1]|]; [|auto].
  destruct (run_value v st1) as [[n st2]|]; eauto.
Qed.
Lemma insert_sim o v st st' : R false st st' -> (forall f, v <> VMap f) -> (free = true -> mentions x (SInsert o (KVar x) v) = false) ->
  sim (R true) (run_insert copy num seen o (KVar x) v st) (run_entry num seen o vacant v st').
Proof.
  intros (A & N & MY & BO & AT) NM ME. destruct (AT eq_refl) as (AT1 & AT2 & AT3).
  destruct (insert_norm o v st) as [Q|[st2 Q]]; rewrite Q; [exact Logic.I|].
  destruct (insert_inv o v st st2 N Q) as (stm & n & st1 & W & V & ->).
  assert (AM : agree stm st' /\ ent stm = NoEntry /\ map stm = map st) by (unfold agree in *; destruct W as [->| ->]; cbn; auto). destruct AM as (AM & EM & MM).
  destruct (value_sim v stm st' n st1 AM NM) as (st1' & V' & AG & E1 & E2 & E3 & E4 & E5).
  - intros y ->. apply not_moved; auto.
  - exact V.
  - unfold run_entry. rewrite AT1, V'. cbn [sim]. rewrite E1, EM, AT2, E4, MM. cbn [touch].
    destruct AG as (G1 & G2 & G3).
    assert (RE : map st k0 = if vacant then None else map st1' k0).
    { unfold has in AT3. rewrite <- G1, E4, MM. destruct vacant, (map st k0); cbn in AT3; congruence. }
    assert (GE : map st1' = map st) by congruence.
    unfold R, agree, may, borrowed in *. rewrite <- RE. destruct o; cbn; rewrite ?E3, ?GE; repeat split; auto; try discriminate; congruence.
Qed.

(* The insertions replaced by those of the entry *)
Lemma snippet_sim s : forall il v, source s = true -> assigns x s = false -> closure_inserts s = false -> (free = true -> mentions x s = false) ->
  can_use_entry (visit il (KVar x) s v) = true ->
  forall st st', R (is_map_used v) st st' -> sim (R (is_map_used (visit il (KVar x) s v))) (exec s st) (exec (snippet vacant s) st').
Proof.
  induction s as [|a IHa b IHb|o k' val|o vac val|f|y f|y f|f|c a IHa b IHb|c a IHa|b IHb| | |f b IHb]; intros il v SO AS CL ME C st st' E;
    (destruct (can_use_entry v) eqn:CV; [|rewrite visit_stopped in C by exact CV; congruence]);
    pose proof E as ((A1 & A2 & A3) & A4 & A5 & A6 & A7);
    (assert (F : filled st = false) by (unfold filled; rewrite A4; reflexivity)); pose proof (borrowed_filled _ A6) as F';
    pose proof (visit_told x _ il v SO C) as TO;
    rewrite (visit_unfold _ _ _ v CV) in *; cbn [snippet];
    rewrite (exec_unfold _ st F), (exec_unfold _ st' F'); cbn [source assigns closure_inserts] in *; try discriminate SO.
  - exact E.
  - apply andb_true_iff in SO. destruct SO as [SA SB]. apply orb_false_iff in AS. destruct AS as [AA AB]. apply orb_false_iff in CL. destruct CL as [CA CB].
    assert (MA : free = true -> mentions x a = false) by (intros G; specialize (ME G); apply orb_false_iff in ME; apply ME).
    assert (MB : free = true -> mentions x b = false) by (intros G; specialize (ME G); apply orb_false_iff in ME; apply ME).
    pose proof (visit_told x b il _ SB C) as TB.
    specialize (IHa il (set_tail false v) SA AA CA MA (t_can _ _ _ _ TB) st st' E). pose proof (t_used _ _ _ _ TB) as TU. cbn in TU.
    destruct (exec a st), (exec (snippet vacant a) st'); cbn [sim] in IHa |- *; try exact Logic.I; try contradiction.
    + apply (IHb il _ SB AB CB MB C). exact IHa.
    + eapply R_weak; [|exact IHa]. exact TU.
    + eapply R_weak; [|exact IHa]. exact TU.
  - assert (T : exists v0, is_map_used v0 = is_map_used v /\ can_use_entry (visit_insert (KVar x) k' val v0) = true /\
      (if o then visit_insert (KVar x) k' val (other true v) else visit_insert (KVar x) k' val v) = visit_insert (KVar x) k' val v0).
    { destruct o; [exists (other true v)|exists v]; repeat split; auto. }
    destruct T as (v0 & U & C0 & EQ). rewrite EQ.
    destruct (told_insert _ _ _ _ C0) as (_ & U0 & -> & NM & U1 & _). rewrite U1.
    apply insert_sim; auto. rewrite <- U0, U. exact E.
  - exact (use_sim _ f st st' E).
  - destruct (is_moved y st); [exact Logic.I|]. rewrite (not_moved y st' A5 ME). cbn [sim]. rewrite A2, A3.
    replace (is_map_used (if names (KVar x) y then set_key (other true v) else other true v)) with (is_map_used v) by (destruct (names (KVar x) y); reflexivity).
    apply R_log. exact E.
  - replace (is_map_used (if names (KVar x) y then set_key (other true v) else other true v)) with (is_map_used v) by (destruct (names (KVar x) y); reflexivity).
    cbn [sim]. pose proof (not_moved y st') as NM. unfold R, agree, may, borrowed, set_var in *. cbn in *.
    rewrite A1, A2, A3, (NM A5 ME). rewrite Nat.eqb_sym in AS. rewrite AS. rewrite A1, A2 in A7. repeat split; auto; apply A7; auto.
  - cbn. apply R_log. exact E.
  - apply andb_true_iff in SO. destruct SO as [SA SB]. apply orb_false_iff in AS. destruct AS as [AA AB]. apply orb_false_iff in CL. destruct CL as [CA CB].
    assert (MA : free = true -> mentions x a = false) by (intros G; specialize (ME G); apply orb_false_iff in ME; apply ME).
    assert (MB : free = true -> mentions x b = false) by (intros G; specialize (ME G); apply orb_false_iff in ME; apply ME).
    cbn [set_used set_tail is_map_used can_use_entry] in *. pose proof (visit_told x b il _ SB C) as TB. pose proof (t_can _ _ _ _ TB) as CCA. cbn in CCA.
    rewrite A3. destruct (yes c (trace st')).
    + specialize (IHa il v SA AA CA MA CCA (log (Called c) st) (log (Called c) st') (R_log _ _ _ _ E)).
      eapply sim_weak; [|exact IHa]. intros. eapply R_weak; [|eassumption]. intros H0. apply orb_false_iff in H0. apply H0.
    + specialize (IHb il _ SB AB CB MB C (log (Called c) st) (log (Called c) st') (R_log _ _ _ _ E)).
      eapply sim_weak; [|exact IHb]. intros. eapply R_weak; [|eassumption]. intros H0. apply orb_false_iff in H0. apply H0.
  - rewrite A3. destruct (yes c (trace st')).
    + apply (IHa il (other true v)); auto. apply R_log. exact E.
    + cbn [sim]. eapply R_weak; [|apply R_log; exact E]. exact (t_used _ _ _ _ TO).
  - destruct (Nat.eqb (edits (visit true (KVar x) b (allow (negb (in_tail_pos v)) v))) (edits v)) eqn:EE; [|discriminate C].
    apply Nat.eqb_eq in EE. pose proof (visit_told x b true _ SO C) as TB. pose proof (t_inserts _ _ _ _ TB EE) as IN.
    pose proof (t_used _ _ _ _ TB) as TU. cbn in TU. rewrite (snippet_id vacant b IN) in *.
    destruct (is_map_used (visit true (KVar x) b (allow (negb (in_tail_pos v)) v))) eqn:U.
    + apply looping_sim; [apply same_sim; auto|]. eapply R_weak; [|exact E]. discriminate.
    + apply looping_sim.
      * intros s1 s2 E1. specialize (IHb true (allow (negb (in_tail_pos v)) v) SO AS CL ME C s1 s2). cbn in IHb. rewrite U, (TU eq_refl) in IHb. apply IHb. exact E1.
      * rewrite (TU eq_refl) in E. exact E.
  - exact E.
  - exact E.
  - pose proof (visit_told x b false _ SO C) as TB. pose proof (t_used _ _ _ _ TB) as TU. cbn in TU. rewrite (snippet_id vacant b CL) in *.
    pose proof (inserts_closure b CL) as CL'. rewrite A3.
    destruct (is_map_used (visit false (KVar x) b (other true v))) eqn:U.
    + apply many_sim; [apply same_sim; auto|]. apply R_log. eapply R_weak; [|exact E]. discriminate.
    + apply many_sim.
      * intros s1 s2 E1. specialize (IHb false (other true v) SO AS CL' ME C s1 s2). cbn in IHb. rewrite U, (TU eq_refl) in IHb. apply IHb. exact E1.
      * apply R_log. rewrite (TU eq_refl) in E. exact E.
Qed.
End Sim.
