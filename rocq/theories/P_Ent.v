(* C141: checks for a key that are followed by insertions, and entries. *)
From Coq Require Import List Bool PeanoNat Lia.
Import ListNotations.
From Verif Require Import EntSpec EntModel EntProofs EntProofs2 EntProofs3.

Definition sources (b : option stmt) : bool := match b with Some b => source b | None => true end.
Definition no_else (b : option stmt) : bool := match b with Some _ => false | None => true end.

Lemma sim_same (P : state -> state -> Prop) o o' : o <> Stuck -> (forall a b, P a b -> agree a b) -> sim P o o' -> same o o'.
Proof. intros N H. destruct o, o'; cbn; auto; congruence. Qed.
Lemma sim_drop (P : state -> state -> Prop) o o' : o <> Stuck -> (forall a b, P a b -> agree a b) -> sim P o o' -> same o (drop_entry o').
Proof. intros N H S. destruct o, o'; cbn in *; try contradiction; auto; try congruence; specialize (H _ _ S); unfold agree in *; cbn; intuition. Qed.

(* Where the key is a variable that is not assigned, no closure inserts, and a key that is not Copy is not used otherwise unless there is an
   else: what is suggested compiles, calls the same, observes the same and leaves the same map.  fuel bounds the turns of a loop (Out). *)
Theorem map_entry_partial :
  forall copy num times yes fn act seen fuel negated x a b sugg st,
  check_expr copy (Check negated (KVar x) a b) = Some (Some sugg) ->
  source a = true -> sources b = true ->
  assigns x a = false -> assigns x (or_skip b) = false ->
  closure_inserts a = false -> closure_inserts (or_skip b) = false ->
  (copy = false -> b = None -> mentions x a = false) ->
  ent st = NoEntry -> moved st = None ->
  run_check copy num times yes fn act seen fuel (Check negated (KVar x) a b) st <> Stuck ->
  same (run_check copy num times yes fn act seen fuel (Check negated (KVar x) a b) st) (run_suggestion copy num times yes fn act seen fuel sugg st).
Proof.
  intros copy num times yes fn act seen fuel negated x a b sugg st CE SA SB AA AB CA CB ME N MV NS.
  unfold run_check, borrow_key in *. assert (IM : is_moved x st = false) by (unfold is_moved; now rewrite MV). rewrite IM in *.
  unfold run_suggestion. set (stg := if copy then st else with_moved (Some x) st).
  assert (G : give_key copy num (KVar x) st = Some (vars st x, stg)) by (cbn; now rewrite IM).
  assert (MG : map stg = map st) by (unfold stg; destruct copy; reflexivity).
  assert (MAY : forall free e, copy = true \/ free = true -> may copy x free (with_ent e stg)).
  { intros free e [->|F]; unfold may, stg; cbn; [auto|]. right. split; [exact F|]. destruct copy; cbn; rewrite ?MV; auto. }
  assert (AG : forall e, agree st (with_ent e stg)) by (intros e; unfold agree, stg; destruct copy; cbn; auto).
  assert (R1 : forall vacant free, copy = true \/ free = true -> has (map st) (vars st x) = negb vacant ->
     R copy x (vars st x) vacant free false st (with_ent (At (vars st x)) stg)).
  { intros vacant free F H. split; [apply AG|]. split; [exact N|]. split; [apply MAY; exact F|]. split; [reflexivity|]. intros _. repeat split; auto. }
  assert (EG : ent stg = NoEntry) by (unfold stg; destruct copy; exact N).
  assert (R2 : forall vacant free, copy = true \/ free = true -> R copy x (vars st x) vacant free true st stg).
  { intros vacant free F. split; [unfold stg, agree; destruct copy; cbn; auto|]. split; [exact N|]. split; [specialize (MAY free NoEntry F); exact MAY|].
    split; [unfold borrowed; now rewrite EG|discriminate]. }
  assert (RA : forall vac free u p q, R copy x (vars st x) vac free u p q -> agree p q) by (intros vac free u p q H; apply H).
  assert (HAS : forall vacant, xorb vacant (has (map st) (vars st x)) = true -> has (map st) (vars st x) = negb vacant)
    by (intros vacant; destruct vacant, (has (map st) (vars st x)); cbn; congruence).
  unfold check_expr in CE. destruct (find_insert_calls (KVar x) a) as [va|] eqn:FA; [|discriminate].
  unfold find_insert_calls in FA. set (v0 := {| allow_insert_closure := true; can_use_entry := true; in_tail_pos := true; is_map_used := false; is_key_used := false; edits := 0 |}) in *.
  destruct (can_use_entry (visit false (KVar x) a v0)) eqn:CCA; [|discriminate]. injection FA as <-.
  pose proof (visit_told x a false v0 SA CCA) as TA.
  (* the insertions of an arm replaced; an arm without insertions *)
  assert (ARM : forall s vacant free, source s = true -> assigns x s = false -> closure_inserts s = false -> can_use_entry (visit false (KVar x) s v0) = true ->
     copy = true \/ free = true -> (free = true -> mentions x s = false) -> has (map st) (vars st x) = negb vacant ->
     exec copy num times yes fn act seen fuel s st <> Stuck ->
     same (exec copy num times yes fn act seen fuel s st) (drop_entry (exec copy num times yes fn act seen fuel (snippet vacant s) (with_ent (At (vars st x)) stg)))).
  { intros s vacant free S1 S2 S3 S4 F S5 S6 S7. eapply sim_drop; [exact S7| |]; cycle 1.
    - apply (snippet_sim copy num times yes fn act seen x (vars st x) vacant free fuel s false v0 S1 S2 S3 S5 S4). apply R1; auto.
    - intros. eapply RA; eassumption. }
  assert (REST : forall s free, source s = true -> inserts s = false -> copy = true \/ free = true -> (free = true -> mentions x s = false) ->
     exec copy num times yes fn act seen fuel s st <> Stuck ->
     same (exec copy num times yes fn act seen fuel s st) (exec copy num times yes fn act seen fuel s stg)).
  { intros s free S1 S2 F S5 S7. eapply sim_same; [exact S7| |]; cycle 1.
    - apply (same_sim copy num times yes fn act seen x (vars st x) true free fuel s S1 S2 S5). apply R2; auto.
    - intros. eapply RA; eassumption. }
  destruct b as [b|]; cbn [or_skip sources] in *.
  - destruct (find_insert_calls (KVar x) b) as [vb|] eqn:FB; [|discriminate].
    unfold find_insert_calls in FB. fold v0 in FB. destruct (can_use_entry (visit false (KVar x) b v0)) eqn:CCB; [|discriminate]. injection FB as <-.
    pose proof (visit_told x b false v0 SB CCB) as TB.
    destruct (Nat.eqb (edits (visit false (KVar x) a v0)) 0 && Nat.eqb (edits (visit false (KVar x) b v0)) 0) eqn:E0; [discriminate|].
    destruct ((is_key_used (visit false (KVar x) a v0) || is_key_used (visit false (KVar x) b v0)) && negb copy) eqn:KU; [discriminate|].
    assert (FR : exists free, (copy = true \/ free = true) /\ (free = true -> mentions x a = false) /\ (free = true -> mentions x b = false)).
    { destruct copy; [exists false; repeat split; auto; discriminate|]. exists true. rewrite andb_true_r in KU. apply orb_false_iff in KU. destruct KU as [KA KB].
      repeat split; [auto| |]; intros _; [exact (proj2 (t_key _ _ _ _ TA KA))|exact (proj2 (t_key _ _ _ _ TB KB))]. }
    destruct FR as (free & F & FA & FB).
    destruct (Nat.eqb (edits (visit false (KVar x) b v0)) 0) eqn:EB.
    + injection CE as <-. cbn [or_skip]. rewrite G. rewrite MG. destruct (xorb negated (has (map st) (vars st x))) eqn:X.
      * eapply ARM; eauto.
      * apply Nat.eqb_eq in EB. eapply REST; eauto. exact (t_inserts _ _ _ _ TB EB).
    + destruct (Nat.eqb (edits (visit false (KVar x) a v0)) 0) eqn:EA.
      * injection CE as <-. cbn [or_skip]. rewrite G. rewrite MG.
        assert (XX : xorb (negb negated) (has (map st) (vars st x)) = negb (xorb negated (has (map st) (vars st x)))) by (destruct negated, (has (map st) (vars st x)); reflexivity).
        rewrite XX. destruct (xorb negated (has (map st) (vars st x))) eqn:X; cbn [negb].
        -- apply Nat.eqb_eq in EA. eapply REST; eauto. exact (t_inserts _ _ _ _ TA EA).
        -- eapply ARM; eauto.
      * injection CE as <-. destruct negated; rewrite G, MG; destruct (has (map st) (vars st x)) eqn:H; cbn [xorb] in NS |- *; eapply ARM; eauto.
  - destruct (Nat.eqb (edits (visit false (KVar x) a v0)) 0) eqn:E0; [discriminate|].
    assert (FR : exists free, (copy = true \/ free = true) /\ (free = true -> mentions x a = false)).
    { destruct copy; [exists false; repeat split; auto; discriminate|]. exists true. split; auto. }
    destruct FR as (free & F & FA).
    destruct (allow_insert_closure (visit false (KVar x) a v0)) eqn:AL; cbn [negb] in CE.
    + destruct negated; cbn [negb] in CE; [|discriminate].
      assert (QS : Q copy x (vars st x) (map st) free st (with_ent Pending stg)).
      { split; [apply AG|]. split; [exact N|]. split; [reflexivity|]. split; [apply MAY; exact F|]. auto. }
      pose proof (closure_sim copy num times yes fn act seen x (vars st x) (map st) free fuel a false v0 SA AA FA CCA AL eq_refl eq_refl st _ QS) as CS.
      cbn [xorb] in *.
      assert (SK : same (exec copy num times yes fn act seen fuel SSkip st) (Norm stg)).
      { cbn. unfold filled. rewrite N. cbn. exact (AG NoEntry). }
      assert (BL : forall k, sugg = OrInsertBlock k (snippet true a) -> k = KVar x ->
        same (if negb (has (map st) (vars st x)) then exec copy num times yes fn act seen fuel a st else exec copy num times yes fn act seen fuel SSkip st)
          (run_suggestion copy num times yes fn act seen fuel sugg st)).
      { intros k -> ->. unfold run_suggestion. rewrite G, MG. destruct (has (map st) (vars st x)) eqn:H; cbn [negb] in *; [exact SK|].
        destruct (exec copy num times yes fn act seen fuel a st); cbn [simF] in CS; try congruence;
          destruct (exec copy num times yes fn act seen fuel (snippet true a) (with_ent Pending stg)); try contradiction; [exact Logic.I|].
        destruct CS as (n & C1 & C2 & C3 & C4 & C5). rewrite C1. cbn. unfold agree. cbn. rewrite C2, C3. auto. }
      destruct a as [|a1 a2|o k' val|o vac val|f|y f|y f|f|c a1 a2|c a1|a1| | |f a1]; try (injection CE as <-; eapply BL; reflexivity).
      destruct o.
      { destruct (told_insert _ _ _ _ CCA) as (_ & _ & _ & _ & _ & ALE & _). change (visit false (KVar x) (SInsert true k' val) v0) with (visit_insert (KVar x) k' val (other true v0)) in AL.
        rewrite ALE in AL. discriminate AL. }
      cbn [snippet] in CS. cbn [EntSpec.exec] in CS. unfold filled in CS. rewrite N in CS. cbn [with_ent ent] in CS.
      assert (EX : exec copy num times yes fn act seen fuel (SInsert false k' val) st = run_insert copy num seen false k' val st).
      { cbn [EntSpec.exec]. unfold filled. now rewrite N. }
      rewrite EX in *. unfold run_entry in CS. cbn [with_ent ent] in CS.
      destruct (can_have_side_effects val) eqn:SE; injection CE as <-; rewrite G.
      * rewrite MG. destruct (has (map st) (vars st x)) eqn:H; cbn [negb] in *; [exact SK|].
        destruct (run_insert copy num seen false k' val st); cbn [simF] in CS; try congruence;
          destruct (EntSpec.run_value num seen val (with_ent Pending stg)) as [[n s1]|]; try contradiction.
        destruct CS as (n' & C1 & C2 & C3 & C4 & C5). cbn in *. injection C1 as <-. unfold agree. cbn. rewrite C2, C3. auto.
      * destruct val as [n|f|y|f]; try discriminate SE. cbn [EntSpec.run_value]. change (map (with_ent Pending stg)) with (map stg). rewrite MG.
        destruct (has (map st) (vars st x)) eqn:H; cbn [negb] in *; [exact SK|].
        destruct (run_insert copy num seen false k' (VLit n) st); cbn [simF EntSpec.run_value] in CS; try congruence; try contradiction.
        destruct CS as (n' & C1 & C2 & C3 & C4 & C5). cbn in *. injection C1 as <-. unfold agree. cbn. rewrite C2, C3. auto.
    + injection CE as <-. cbn [or_skip]. rewrite G, MG. destruct (xorb negated (has (map st) (vars st x))) eqn:X.
      * eapply ARM; eauto.
      * eapply (REST SSkip free); auto.
Qed.
Print Assumptions map_entry_partial.

Definition st0 : state := {| map := fun _ => None; vars := fun _ => 0; moved := None; ent := NoEntry; trace := [] |}.
(* What is missing.
   if !m.contains_key(&k) { k = f(); m.insert(k, 5); }, where k is Copy: the entry is still that of the key checked for *)
Theorem map_entry_assigned_refuted :
  exists num a sugg,
    check_expr true (Check true (KVar 0) a None) = Some (Some sugg) /\ source a = true /\ closure_inserts a = false /\
    run_check true num num (fun _ _ => true) (fun _ _ _ => 0) (fun _ m _ => m) (fun _ _ _ => 0) 5 (Check true (KVar 0) a None) st0 <> Stuck /\
    ~ same (run_check true num num (fun _ _ => true) (fun _ _ _ => 0) (fun _ m _ => m) (fun _ _ _ => 0) 5 (Check true (KVar 0) a None) st0)
           (run_suggestion true num num (fun _ _ => true) (fun _ _ _ => 0) (fun _ m _ => m) (fun _ _ _ => 0) 5 sugg st0).
Proof.
  exists (fun _ _ => 9), (SSeq (SSet 0 7) (SInsert false (KVar 0) (VLit 5))), (OrInsertBlock (KVar 0) (SSeq (SSet 0 7) (SEntry false true (VLit 5)))).
  repeat split; try reflexivity; [discriminate|].
  cbn. unfold agree. cbn. intros (E & _). apply (f_equal (fun m => m 9)) in E. cbn in E. discriminate E.
Qed.
Print Assumptions map_entry_assigned_refuted.
(* if !m.contains_key(&f()) { m.insert(f(), 5); }: f is called once *)
Theorem map_entry_call_refuted :
  exists num a sugg f,
    check_expr true (Check true (KCall f) a None) = Some (Some sugg) /\ source a = true /\ closure_inserts a = false /\
    run_check true num num (fun _ _ => true) (fun _ _ _ => 0) (fun _ m _ => m) (fun _ _ _ => 0) 5 (Check true (KCall f) a None) st0 <> Stuck /\
    ~ same (run_check true num num (fun _ _ => true) (fun _ _ _ => 0) (fun _ m _ => m) (fun _ _ _ => 0) 5 (Check true (KCall f) a None) st0)
           (run_suggestion true num num (fun _ _ => true) (fun _ _ _ => 0) (fun _ m _ => m) (fun _ _ _ => 0) 5 sugg st0).
Proof.
  exists (fun _ _ => 9), (SInsert false (KCall 3) (VLit 5)), (OrInsert (KCall 3) (VLit 5)), 3.
  repeat split; try reflexivity; [discriminate|].
  cbn. unfold agree. cbn. intros (_ & _ & E). discriminate E.
Qed.
Print Assumptions map_entry_call_refuted.
(* if !m.contains_key(&k) { each(|| { m.insert(k, g()); }); }: the closure takes the entry, and can be called once only *)
Theorem map_entry_closure_refuted :
  exists num a sugg,
    check_expr true (Check true (KVar 0) a None) = Some (Some sugg) /\ source a = true /\ assigns 0 a = false /\
    run_check true num num (fun _ _ => true) (fun _ _ _ => 0) (fun _ m _ => m) (fun _ _ _ => 0) 5 (Check true (KVar 0) a None) st0 <> Stuck /\
    run_suggestion true num num (fun _ _ => true) (fun _ _ _ => 0) (fun _ m _ => m) (fun _ _ _ => 0) 5 sugg st0 = Stuck.
Proof.
  exists (fun _ _ => 2), (SMany 1 (SInsert false (KVar 0) (VCall 5))), (IfLet (KVar 0) true (SMany 1 (SEntry false true (VCall 5))) None).
  repeat split; try reflexivity. discriminate.
Qed.
Print Assumptions map_entry_closure_refuted.
(* if !m.contains_key(&k) { f(&k); m.insert(k, 5); }, where k is not Copy: k is moved into the call of entry; with an else no code is suggested *)
Theorem map_entry_moved_refuted :
  exists num a sugg,
    check_expr false (Check true (KVar 0) a None) = Some (Some sugg) /\ source a = true /\ assigns 0 a = false /\ closure_inserts a = false /\
    run_check false num num (fun _ _ => true) (fun _ _ _ => 0) (fun _ m _ => m) (fun _ _ _ => 0) 5 (Check true (KVar 0) a None) st0 <> Stuck /\
    run_suggestion false num num (fun _ _ => true) (fun _ _ _ => 0) (fun _ m _ => m) (fun _ _ _ => 0) 5 sugg st0 = Stuck.
Proof.
  exists (fun _ _ => 2), (SSeq (SUseKey 0 1) (SInsert false (KVar 0) (VLit 5))), (OrInsertBlock (KVar 0) (SSeq (SUseKey 0 1) (SEntry false true (VLit 5)))).
  repeat split; try reflexivity. discriminate.
Qed.
Print Assumptions map_entry_moved_refuted.

(* if !m.contains_key(&k) { if c() { f(&k); m.insert(k, g()); } else { loop { h(); break; } let r = m.insert(k, 5); use(r); m.len(); } } else { let r = m.insert(k, 6); use(r); } *)
Definition ex_a : stmt :=
  SIf 1 (SSeq (SUseKey 0 2) (SInsert false (KVar 0) (VCall 3))) (SSeq (SLoop (SSeq (SCall 4) SBreak)) (SSeq (SInsert true (KVar 0) (VLit 5)) (SUseMap 6))).
Definition ex_b : stmt := SInsert true (KVar 0) (VLit 6).
Example C141_nontrivial :
  check_expr true (Check true (KVar 0) ex_a (Some ex_b)) = Some (Some (Match (KVar 0) (snippet true ex_a) (snippet false ex_b))) /\
  check_expr false (Check true (KVar 0) ex_a (Some ex_b)) = Some None /\
  source ex_a = true /\ assigns 0 ex_a = false /\ closure_inserts ex_a = false /\
  (exists st, run_check true (fun _ _ => 7) (fun _ _ => 7) (fun _ _ => true) (fun _ _ _ => 0) (fun _ m _ => m) (fun _ _ _ => 0) 5 (Check true (KVar 0) ex_a (Some ex_b)) st0 = Norm st /\ map st 0 = Some 7 /\ length (trace st) = 3) /\
  (exists st, run_suggestion true (fun _ _ => 7) (fun _ _ => 7) (fun _ _ => true) (fun _ _ _ => 0) (fun _ m _ => m) (fun _ _ _ => 0) 5 (Match (KVar 0) (snippet true ex_a) (snippet false ex_b)) st0 = Norm st /\ map st 0 = Some 7) /\
  (* the branches that both end with an insertion become the value of a closure *)
  check_expr true (Check true (KVar 0) (SSeq (SCall 1) (SIf 1 (SInsert false (KVar 0) (VLit 1)) (SInsert false (KVar 0) (VLit 2)))) None)
    = Some (Some (OrInsertBlock (KVar 0) (SSeq (SCall 1) (SIf 1 (SEntry false true (VLit 1)) (SEntry false true (VLit 2)))))) /\
  (* a return cannot be moved into a closure *)
  check_expr true (Check true (KVar 0) (SSeq (SWhen 1 SReturn) (SInsert false (KVar 0) (VLit 1))) None)
    = Some (Some (IfLet (KVar 0) true (SSeq (SWhen 1 SReturn) (SEntry false true (VLit 1))) None)) /\
  check_expr true (Check true (KVar 0) (SInsert false (KVar 0) (VCall 1)) None) = Some (Some (OrInsertWith (KVar 0) (VCall 1))) /\
  check_expr true (Check true (KVar 0) (SInsert false (KVar 0) (VMap 1)) None) = None /\
  check_expr true (Check true (KVar 0) (SLoop (SInsert false (KVar 0) (VCall 1))) None) = None /\
  check_expr true (Check true (KVar 0) (SSeq (SUseMap 1) (SInsert false (KVar 0) (VCall 1))) None) = None.
Proof. repeat split; try reflexivity; eexists; repeat split. Qed.
