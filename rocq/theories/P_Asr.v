(* C134, C135: what the lint about assertions before indexing reports, and what it suggests *)
From Coq Require Import List Bool PeanoNat.
Import ListNotations.
From Verif Require Import AsrSpec AsrModel AsrProofs AsrProofs2.

(* C134: without a report, no bounds check fails after the first one and the assertion before it have passed.  Partial: for
   texts without branches and assignments to slices, and without v[..=0]; see below. *)
Theorem missing_asserts_silent_partial : forall v ss,
  straight ss -> (forall i, In (Index v i) ss -> through_zero i = false) -> report v ss = None ->
  forall len i rest, checks v ss = i :: rest -> in_bounds len i = true ->
  (forall c n m, first_about v ss = Some (Check v c n m) -> holds c len n = true) ->
  forall j, In j rest -> in_bounds len j = true.
Proof. exact silent. Qed.
Print Assumptions missing_asserts_silent_partial.
(* An assertion is asked for exactly if the first check is an index, and a later one needs a longer slice; for the longest *)
Theorem missing_asserts_reported_partial : forall v ss,
  straight ss -> (forall i, In (Index v i) ss -> through_zero i = false) ->
  forall h, report v ss = Some (Add h) <->
  exists i rest, checks v ss = i :: rest /\ (forall c n m, first_about v ss <> Some (Check v c n m)) /\
    needed i < S h /\ (exists j, In j rest /\ needed j = S h) /\ (forall j, In j rest -> needed j <= S h).
Proof. exact reported_add. Qed.
Print Assumptions missing_asserts_reported_partial.
(* The assertion fails only where the text panics anyway *)
Theorem missing_asserts_add_partial : forall cond v ss h,
  straight ss -> report v ss = Some (Add h) -> forall l, runs cond (apply v (Add h) ss) l = runs cond ss l.
Proof. exact added. Qed.
Print Assumptions missing_asserts_add_partial.

Definition never (c : nat) : bool := false.
(* v[1]; w[7]; v[2..6]; v[..0] *)
Definition text : list stmt := [Index 0 (At 1); Index 1 (At 7); Index 0 (Upto 2 6); Index 0 (Upto 0 0)].
Example C134_nontrivial :
  report 0 text = Some (Add 5) /\ report 1 text = None /\ checks 0 text = [At 1; Upto 2 6] /\
  runs never text (fun _ => 8) <> None /\ runs never (apply 0 (Add 5) text) (fun _ => 8) <> None /\
  runs never (apply 0 (Add 5) text) (fun v => if Nat.eqb v 0 then 5 else 8) = None.
Proof. split; [reflexivity|]. split; [reflexivity|]. split; [reflexivity|]. split; [discriminate|]. split; [discriminate|reflexivity]. Qed.
Example C134_silent :
  let ss := [Check 0 More 5 Assert; Index 0 (At 1); Index 0 (Through 0 5)] in
  straight ss /\ report 0 ss = None /\ checks 0 ss = [At 1; Through 0 5] /\ in_bounds 6 (Through 0 5) = true.
Proof. split; [intros s [<-|[<-|[<-|[]]]]; exact Logic.I|]. repeat split. Qed.

(* v[..=0]; v[5]: no report, though the second check may fail *)
Theorem missing_asserts_through_zero_refuted : exists v ss len i rest j,
  straight ss /\ report v ss = None /\ checks v ss = i :: rest /\ in_bounds len i = true /\
  (forall c n m, first_about v ss <> Some (Check v c n m)) /\ In j rest /\ in_bounds len j = false.
Proof.
  exists 0, [Index 0 (Through 0 0); Index 0 (At 5)], 1, (Through 0 0), [At 5], (At 5).
  split; [intros s [<-|[<-|[]]]; exact Logic.I|]. repeat split; try (intros; discriminate). left. reflexivity.
Qed.
Print Assumptions missing_asserts_through_zero_refuted.
(* if c { v[5]; } v[1]; v[3]: no report, though v[3] may fail after v[1] has passed *)
Theorem missing_asserts_branch_refuted : exists v cond s t u l,
  report v [s; t; u] = None /\ runs cond [s; t] l <> None /\ runs cond [s; t; u] l = None /\
  (exists n m, t = Index v (At n) /\ u = Index v (At m)).
Proof.
  exists 0, never, (If 0 [Index 0 (At 5)] []), (Index 0 (At 1)), (Index 0 (At 3)), (fun _ => 2).
  split; [reflexivity|]. split; [discriminate|]. split; [reflexivity|]. exists 1, 3. split; reflexivity.
Qed.
Print Assumptions missing_asserts_branch_refuted.
(* v[5]; v = w; v[1]; v[3] *)
Theorem missing_asserts_assigned_refuted : exists v w cond n m k l,
  report v [Index v (At n); Set_ v w; Index v (At m); Index v (At k)] = None /\
  runs cond [Index v (At n); Set_ v w; Index v (At m)] l <> None /\
  runs cond [Index v (At n); Set_ v w; Index v (At m); Index v (At k)] l = None.
Proof.
  exists 0, 1, never, 5, 1, 3, (fun v => if Nat.eqb v 0 then 6 else 2). split; [reflexivity|]. split; [discriminate|reflexivity].
Qed.
Print Assumptions missing_asserts_assigned_refuted.
(* if c { v[0]; } else { v[5]; }: the assertion fails where the text does not *)
Theorem missing_asserts_add_branch_refuted : exists v cond ss h l,
  report v ss = Some (Add h) /\ runs cond ss l <> None /\ runs cond (apply v (Add h) ss) l = None.
Proof.
  exists 0, (fun _ => true), [If 0 [Index 0 (At 0)] [Index 0 (At 5)]], 5, (fun _ => 1). split; [reflexivity|]. split; [discriminate|reflexivity].
Qed.
Print Assumptions missing_asserts_add_branch_refuted.

(* C135: an assertion v.len() > n or v.len() >= n that is replaced: same panics, and same lengths after it *)
Theorem missing_asserts_replace_partial : forall cond v ss c n m c0 n0 m0,
  straight ss -> (forall i, In (Index v i) ss -> through_zero i = false) ->
  report v ss = Some (Replace c n m) -> first_about v ss = Some (Check v c0 n0 m0) -> c0 = More \/ c0 = MoreEq ->
  forall l, runs cond (apply v (Replace c n m) ss) l = runs cond ss l.
Proof. exact replaced. Qed.
Print Assumptions missing_asserts_replace_partial.
(* An assertion v.len() == n that is replaced: the text always panics *)
Theorem missing_asserts_equal_partial : forall cond v ss c n m n0 m0,
  straight ss -> (forall i, In (Index v i) ss -> through_zero i = false) ->
  report v ss = Some (Replace c n m) -> first_about v ss = Some (Check v Equal n0 m0) ->
  forall l, runs cond ss l = None.
Proof. exact replaced_equal. Qed.
Print Assumptions missing_asserts_equal_partial.
Example C135_nontrivial :
  let ss := [Check 0 MoreEq 3 Assert; Index 0 (At 1); Index 0 (At 4)] in
  report 0 ss = Some (Replace More 4 Assert) /\ first_about 0 ss = Some (Check 0 MoreEq 3 Assert) /\
  apply 0 (Replace More 4 Assert) ss = [Check 0 More 4 Assert; Index 0 (At 1); Index 0 (At 4)] /\
  report 0 [Check 0 Equal 2 DebugAssertEq; Index 0 (At 1); Index 0 (At 4)] = Some (Replace Equal 5 DebugAssertEq).
Proof. repeat split. Qed.
(* assert!(v.len() < 5); v[0]; v[3]: a longer slice passes the new assertion *)
Theorem missing_asserts_less_refuted : exists v cond ss s l,
  straight ss /\ report v ss = Some s /\ runs cond ss l = None /\ runs cond (apply v s ss) l <> None.
Proof.
  exists 0, never, [Check 0 Less 5 Assert; Index 0 (At 0); Index 0 (At 3)], (Replace More 3 Assert), (fun _ => 7).
  split; [intros s [<-|[<-|[<-|[]]]]; exact Logic.I|]. split; [reflexivity|]. split; [reflexivity|discriminate].
Qed.
Print Assumptions missing_asserts_less_refuted.
(* assert_eq!(v.len(), 2); v[0]; v[3] *)
Theorem missing_asserts_equal_refuted : exists v cond ss s l,
  straight ss /\ report v ss = Some s /\ runs cond ss l = None /\ runs cond (apply v s ss) l <> None.
Proof.
  exists 0, never, [Check 0 Equal 2 AssertEq; Index 0 (At 0); Index 0 (At 3)], (Replace Equal 4 AssertEq), (fun _ => 4).
  split; [intros s [<-|[<-|[<-|[]]]]; exact Logic.I|]. split; [reflexivity|]. split; [reflexivity|discriminate].
Qed.
Print Assumptions missing_asserts_equal_refuted.
